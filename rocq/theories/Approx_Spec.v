(** Independent vocabulary for ApproximateTime: sets of messages taken from
    per-input streams, when one set is better than another, which set comes next. *)
From Coq Require Import List Arith ZArith Bool.
From Verif Require Import Base Trace.
Import ListNotations.
Local Open Scope Z_scope.

(** [f] multiplies a duration by num/den >= 1 and rounds the product to a whole number: by
    less than one downwards and by at most tol/den upwards.  With tol = 0 a duration that
    is not negative is rounded towards zero. *)
Record scaling (tol num den : Z) (f : Z -> Z) : Prop := {
  sc_den : 0 < den;
  sc_num : den <= num;
  sc_tol : 0 <= tol < den;
  sc_nonneg : forall d, 0 <= d -> d * num < den * (f d + 1) /\ den * f d <= d * num + tol;
  sc_mono : forall d d', 0 <= d <= d' -> f d <= f d';
  sc_neg : forall d, d < 0 -> f d <= 0 /\ d * num < den * (f d + 1)
}.

Section Spec.
Context {E : Type} (stamp : E -> Z).

Definition well_indexed (n : nat) (h : list (nat * E)) : Prop :=
  forall i e, In (i, e) h -> (i < n)%nat.

(** The stamps of the earliest and the latest message of a (non-empty) set. *)
Fixpoint start (X : list E) : Z :=
  match X with
  | [] => 0
  | [x] => stamp x
  | x :: X' => Z.min (stamp x) (start X')
  end.
Fixpoint finish (X : list E) : Z :=
  match X with
  | [] => 0
  | [x] => stamp x
  | x :: X' => Z.max (stamp x) (finish X')
  end.
Definition span (X : list E) : Z := finish X - start X.

(** Consecutive messages of a stream are at least [b] apart. *)
Definition spaced (b : Z) (l : list E) : Prop :=
  forall k e e', nth_error l k = Some e -> nth_error l (S k) = Some e' ->
    stamp e + b <= stamp e'.

(** In the history [h], followed by the future [fut], every input is time-ordered and
    respects its lower bound. *)
Definition respects (n : nat) (bound : nat -> Z) (F : nat -> list E) : Prop :=
  forall i, (i < n)%nat -> 0 <= bound i /\ spaced (bound i) (F i).

Section Streams.
Variable n : nat.               (* number of inputs *)
Variable F : nat -> list E.     (* for each input all its messages, past and future *)
Variables num den : Z.          (* 1 + age penalty = num / den *)
Variable max : Z.               (* maximum interval duration *)
Variable tol : Z.               (* what rounding a duration may be worth, 0 for none *)

(** [X] is the set taking from each input [i] its message number [x i]. *)
Definition selects (x : nat -> nat) (X : list E) : Prop :=
  length X = n /\ forall i, (i < n)%nat -> nth_error X i = nth_error (F i) (x i).

Definition from (base x : nat -> nat) : Prop := forall i, (i < n)%nat -> (base i <= x i)%nat.
Definition same (x y : nat -> nat) : Prop := forall i, (i < n)%nat -> x i = y i.

(** Starting later pays off if it is worth more than (1 + age penalty) times the
    delay of the end.  [better_by slack]: it is worth more by more than slack/den. *)
Definition better_by (slack : Z) (Y X : list E) : Prop :=
  num * (finish Y - finish X) + slack < den * (start Y - start X).

(** Some message [m] of [X], the pivot, is the latest of a set [Fst] from [base] on that
    [X] does not precede, and no set made of messages from [base] on which straddles [m]
    (in particular none containing [m]) is better than [X], up to rounding. *)
Record optimal_set (base x : nat -> nat) (X : list E) : Prop := {
  os_sel : selects x X;
  os_from : from base x;
  os_opt : exists f Fst p m,
    selects f Fst /\ from base f /\ from f x /\
    (p < n)%nat /\ x p = f p /\ nth_error X p = Some m /\ stamp m = finish Fst /\
    forall y Y, selects y Y -> from base y -> start Y <= stamp m <= finish Y -> ~ better_by tol Y X
}.

(** [f] selects the componentwise earliest set from [base] on that spans at most [max]. *)
Record first_admissible (base f : nat -> nat) (Fst : list E) : Prop := {
  fa_sel : selects f Fst;
  fa_from : from base f;
  fa_span : span Fst <= max;
  fa_least : forall y Y, selects y Y -> from base y -> span Y <= max -> from f y
}.

(** The set that has to come next if [base] are the first unused positions: the
    componentwise earliest among the optimal sets straddling the end of the earliest
    admissible set; it contains the latest message of the earliest admissible set.
    (Optimal and earliest up to rounding.) *)
Definition next_set (base x : nat -> nat) (X : list E) : Prop :=
  selects x X /\ from base x /\
  exists f Fst, first_admissible base f Fst /\ from f x /\
    start X <= finish Fst <= finish X /\
    (exists p m, (p < n)%nat /\ x p = f p /\ nth_error X p = Some m /\ stamp m = finish Fst) /\
    (forall y Y, selects y Y -> from base y -> start Y <= finish Fst <= finish Y ->
       ~ better_by tol Y X /\ (from f y -> ~ better_by (- tol) X Y -> from x y)).

(** [e] is the earliest message of [H], on input [i], the first such input. *)
Definition first_earliest (H : list E) (i : nat) (e : E) : Prop :=
  nth_error H i = Some e /\
  forall j e', nth_error H j = Some e' -> stamp e <= stamp e' /\ ((j < i)%nat -> stamp e < stamp e').

(** A search through the streams with rounded durations.  [scan f t k h x]: from the set at
    positions [f] on, the search has moved on [k] times, each time to the next message of
    the input whose message was the earliest, if that was earlier than [t].  It has
    arrived at the set at positions [h], and [x] are the positions of its favourite: the
    favourite was replaced whenever starting later was worth more than the scaled delay
    of the end. *)
Section Scan.
Variable scale : Z -> Z.        (* multiplies a duration by 1 + age penalty *)
Inductive scan (f : nat -> nat) (t : Z) : nat -> (nat -> nat) -> (nat -> nat) -> Prop :=
| scan_start h x : same f h -> same f x -> scan f t 0 h x
| scan_move k h x i H e h' H' x' X :
    scan f t k h x -> selects h H -> first_earliest H i e -> (i < n)%nat -> stamp e < t ->
    same h' (fun j => if Nat.eq_dec i j then S (h j) else h j) ->
    selects h' H' -> selects x X ->
    same x' (if start H' - start X <=? scale (finish H' - finish X) then x else h') ->
    scan f t (S k) h' x'.

(** The favourite of the search that starts with the earliest admissible set and is not
    replaced however long the search goes on. *)
Definition found_set (base x : nat -> nat) (X : list E) : Prop :=
  selects x X /\ from base x /\
  exists f Fst k h, first_admissible base f Fst /\ scan f (finish Fst) k h x /\
    forall k' h' x', (k <= k')%nat -> scan f (finish Fst) k' h' x' -> same x x'.
End Scan.

(** A sequence of output sets, each one related by [P] to the positions following the
    previous one. *)
Inductive sets_from (P : (nat -> nat) -> (nat -> nat) -> list E -> Prop)
  : (nat -> nat) -> list (list E) -> (nat -> nat) -> Prop :=
| sf_nil base base' : (forall i, (i < n)%nat -> base i = base' i) -> sets_from P base [] base'
| sf_cons base x X outs base' :
    P base x X -> sets_from P (fun i => S (x i)) outs base' ->
    sets_from P base (X :: outs) base'.

Definition each_set (P : (nat -> nat) -> (nat -> nat) -> list E -> Prop)
  (outs : list (list E)) : Prop :=
  exists base', sets_from P (fun _ => 0%nat) outs base'.
End Streams.
End Spec.
