(** What ApproximateEpsilonTime makes of its input streams, without reference to when the
    messages arrive: the streams are read side by side from the front. *)
From Coq Require Import List Arith ZArith Bool.
From Verif Require Import Base Trace Eps_Spec.
Import ListNotations.
Local Open Scope Z_scope.

Section Spec.
Context {E : Type} (stamp : E -> Z).

(** What was received on each of the inputs *)
Definition streams (n : nat) (h : list (nat * E)) : list (list E) :=
  map (fun i => stream i h) (seq 0 n).

(** [heads] are the first messages of all the streams [qs]. *)
Definition first_of (qs : list (list E)) (heads : list E) : Prop :=
  map (@hd_error E) qs = map Some heads.

(** The streams without those first messages that are not later than [b]. *)
Definition discard (b : Z) (q : list E) : list E :=
  match q with
  | [] => []
  | x :: t => if stamp x <=? b then t else q
  end.

(** Reading [qs] from the front gives the sets [outs] and leaves [rest]: if the first messages
    fit in [eps] they are a set; if not, those not later than the oldest one plus [eps] are
    skipped. *)
Inductive read (eps : Z) : list (list E) -> list (list E) -> list (list E) -> Prop :=
| read_nothing qs : read eps qs [] qs
| read_set qs heads outs rest :
    first_of qs heads -> fits stamp eps heads ->
    read eps (map (@tl E) qs) outs rest -> read eps qs (heads :: outs) rest
| read_skip qs heads oldest outs rest :
    first_of qs heads -> ~ fits stamp eps heads ->
    In oldest heads -> (forall x, In x heads -> stamp oldest <= stamp x) ->
    read eps (map (discard (stamp oldest + eps)) qs) outs rest -> read eps qs outs rest.

(** Reading goes on until some stream is exhausted. *)
Definition read_all (eps : Z) (qs outs rest : list (list E)) : Prop :=
  read eps qs outs rest /\ In [] rest.

(** The queues are long enough for [h]: at no time does reading all that has been received
    leave more than [q] messages of an input. *)
Definition queue_suffices (n q : nat) (eps : Z) (h : list (nat * E)) : Prop :=
  forall h1 h2 outs rest v, h = h1 ++ h2 -> read_all eps (streams n h1) outs rest -> In v rest ->
    (length v <= q)%nat.

(** The messages come in groups, with at most one message per input in a group. *)
Definition one_per_group (eps : Z) (h : list (nat * E)) : Prop :=
  close_transitive stamp eps h /\ (forall i, NoDup (stream i h)) /\
  forall i x y, In (i, x) h -> In (i, y) h -> close stamp eps x y -> x = y.

(** One message of each of the inputs, all within [eps]. *)
Definition group (n : nat) (eps : Z) (h : list (nat * E)) (X : list E) : Prop :=
  length X = n /\ fits stamp eps X /\ forall i e, nth_error X i = Some e -> In (i, e) h.
End Spec.
