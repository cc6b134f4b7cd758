(** Independent vocabulary for exact-time synchronisation. *)
From Coq Require Import List Arith ZArith Bool.
From Verif Require Import Base Trace Exact_Model.
Import ListNotations.
Local Open Scope Z_scope.

Section Spec.
Context {E : Type} (stamp : E -> Z).

(** All additions are on existing inputs (in C++ a compile-time fact). *)
Definition well_indexed (n : nat) (h : list (nat * E)) : Prop :=
  forall i e, In (i, e) h -> (i < n)%nat.

(** Each input delivers strictly increasing stamps. *)
Definition in_order (n : nat) (h : list (nat * E)) : Prop :=
  forall i, (i < n)%nat -> strictly_increasing stamp (stream i h).

(** Sets passed to the callback / to the drop callback. *)
Definition signals (os : list (out E)) : list (list E) :=
  flat_map (fun o => match o with Signal s => [s] | Drop _ => [] end) os.
Definition dropped (os : list (out E)) : list (list (option E)) :=
  flat_map (fun o => match o with Signal _ => [] | Drop t => [t] end) os.

(** [s] has one message per input, each received on that input, all with stamp [t]. *)
Definition matching_set (n : nat) (h : list (nat * E)) (t : Z) (s : list E) : Prop :=
  length s = n /\
  forall j e, nth_error s j = Some e -> In (j, e) h /\ stamp e = t.

(** stamp of a set *)
Definition set_stamp (s : list E) : Z := match s with e :: _ => stamp e | [] => 0 end.

(** messages (with their input) contained in a partial set / a complete set *)
Fixpoint tagged_from (i : nat) (t : list (option E)) : list (nat * E) :=
  match t with
  | [] => []
  | Some e :: t' => (i, e) :: tagged_from (S i) t'
  | None :: t' => tagged_from (S i) t'
  end.
Definition tagged (t : list (option E)) : list (nat * E) := tagged_from 0 t.
Definition tagged_set (s : list E) : list (nat * E) := tagged (map Some s).

(** [x] was replaced: a later message on the same input has the same stamp. *)
Definition replaced_in (h : list (nat * E)) (x : nat * E) : Prop :=
  exists h1 h2 h3 e, h = h1 ++ x :: h2 ++ (fst x, e) :: h3 /\ stamp e = stamp (snd x).
End Spec.
