(** Vocabulary for the Python synchronizers: programs, arrivals, deliveries. *)
From Coq Require Import List ZArith Bool.
From Verif Require Import Base Py_Model.
Import ListNotations.
Open Scope Z_scope.

Section Spec.
Context {M : Type}.

(** a message on input [i]; its header; the clock's reading *)
Inductive op := Add (i : nat) (m : M) (hd : header) (now : Z).
(** [add]: the add function; the result lists, for each call, the sets passed to the callbacks and
    whether the call raised an exception (which the caller caught) *)
Section Run.
Variable add : pysync M -> op -> res (pysync M * list (list M) * bool).
Fixpoint run (s : pysync M) (h : list op) : res (pysync M * list (list (list M) * bool)) :=
  match h with
  | [] => Ok (s, [])
  | o :: r => do '(s1, out, ex) <- add s o; do '(s2, rs) <- run s1 r; Ok (s2, (out, ex) :: rs)
  end.
End Run.
Definition add_exact (raises : list M -> bool) (s : pysync M) (o : op) :=
  let '(Add i m hd _) := o in exact_add raises s i m hd.
Definition add_approx (raises : list M -> bool) (slop : Z) (hl : bool) (s : pysync M) (o : op) :=
  let '(Add i m hd now) := o in approx_add raises slop hl s i m hd now.

(** the sets delivered, in order *)
Definition delivered (rs : list (list (list M) * bool)) : list (list M) := concat (map fst rs).

(** the time of a message that takes part: its stamp, or the clock if that is allowed *)
Definition time_of (hl : bool) (hd : header) (now : Z) : option Z :=
  match hd with Stamp t => Some t | NoHeader => if hl then Some now else None | BadStamp => None end.
(** the messages that arrived on input [i], with their times *)
Definition arrival (hl : bool) (i : nat) (o : op) : list (Z * M) :=
  let '(Add j m hd now) := o in
  if Nat.eqb i j then match time_of hl hd now with Some t => [(t, m)] | None => [] end else [].
Definition arrived (hl : bool) (i : nat) (h : list op) : list (Z * M) := flat_map (arrival hl i) h.
(** the [i]-th members of sets *)
Definition column {A} (i : nat) (l : list (list A)) : list A :=
  flat_map (fun x => match nth_error x i with Some a => [a] | None => [] end) l.

(** all differences below [d] *)
Definition within (d : Z) (ts : list Z) : Prop := forall a b, In a ts -> In b ts -> a - b < d.
(** all the same *)
Definition same (ts : list Z) : Prop := forall a b, In a ts -> In b ts -> a = b.
(** [ts] chooses one stored message from every queue *)
Definition choice (qs : list (list (Z * M))) (ts : list Z) : Prop := Forall2 (fun q t => In t (map fst q)) qs ts.

(** at the first input where [a] and [b] differ, [a] is at least as close to [t] *)
Fixpoint no_farther (t : Z) (a b : list Z) : Prop :=
  match a, b with
  | x :: a', y :: b' => (x = y /\ no_farther t a' b') \/ (x <> y /\ Z.abs (x - t) <= Z.abs (y - t))
  | _, _ => True
  end.

(** ** Rendezvous: messages of [k] inputs meet at a table with one row per stamp *)
Fixpoint all_some (l : list (option M)) : option (list M) :=
  match l with
  | [] => Some []
  | Some m :: r => match all_some r with Some ms => Some (m :: ms) | None => None end
  | None :: _ => None
  end.
Definition table : Type := Z -> list (option M).
Definition set_row (tab : table) (t : Z) (row : list (option M)) : table := fun t' => if t' =? t then row else tab t'.
Definition seat (k : nat) (tab : table) (o : op) : table * list (list M) :=
  match o with
  | Add i m (Stamp t) _ =>
      let row := upd i (Some m) (tab t) in
      match all_some row with
      | Some ms => (set_row tab t (repeat None k), [ms])
      | None => (set_row tab t row, [])
      end
  | _ => (tab, [])
  end.
Fixpoint meet (k : nat) (tab : table) (h : list op) : table * list (list (list M)) :=
  match h with
  | [] => (tab, [])
  | o :: r => let '(tab1, out) := seat k tab o in let '(tab2, outs) := meet k tab1 r in (tab2, out :: outs)
  end.
Definition empty_table (k : nat) : table := fun _ => repeat None k.
(** the distinct stamps waiting on input [i] after [h] *)
Definition stamps (h : list op) : list Z :=
  nodup Z.eq_dec (flat_map (fun o => match o with Add _ _ (Stamp t) _ => [t] | _ => [] end) h).
Definition waiting (k : nat) (h : list op) (i : nat) : list Z :=
  filter (fun t => match nth_error (fst (meet k (empty_table k) h) t) i with Some (Some _) => true | _ => false end) (stamps h).
(** no input ever has to hold more than [n] stamps *)
Definition fits (k : nat) (n : Z) (h : list op) : Prop :=
  forall p i m t now q, h = p ++ Add i m (Stamp t) now :: q ->
    Z.of_nat (length (filter (fun t' => negb (t' =? t)) (waiting k p i))) + 1 <= n.
(** every message has a stamp and comes from one of the inputs *)
Definition stamped (k : nat) (h : list (op)) : Prop := forall i m hd now, In (Add i m hd now) h -> (i < k)%nat /\ exists t, hd = Stamp t.
End Spec.
Arguments op : clear implicits.
