(** When a bounded queue of ExactTime is long enough, in terms of what is received. *)
From Coq Require Import List Arith ZArith.
From Verif Require Import Base Trace Exact_Spec.
Import ListNotations.
Local Open Scope Z_scope.

Section Spec.
Context {E : Type} (stamp : E -> Z).

(** Among the messages of [h] there are fewer than [q] different stamps later than [t]. *)
Definition fewer_later (q : nat) (h : list (nat * E)) (t : Z) : Prop :=
  forall ts, NoDup ts -> (forall x, In x ts -> t < x /\ exists i e, In (i, e) h /\ stamp e = x) ->
    (length ts < q)%nat.

(** The queue is long enough for [h]: whenever a message completes a set, fewer than [q] later
    stamps have been seen. *)
Definition queue_suffices (n q : nat) (h : list (nat * E)) : Prop :=
  forall h1 i e h2 ss, h = h1 ++ (i, e) :: h2 -> matching_set stamp n (h1 ++ [(i, e)]) (stamp e) ss ->
    fewer_later q h1 (stamp e).

(** All inputs deliver the stamps of one sequence [S], and none of them is ever more than [k]
    messages ahead of another. *)
Definition same_stamps (n : nat) (S : list Z) (h : list (nat * E)) : Prop :=
  forall i, (i < n)%nat -> prefix (map stamp (stream i h)) S.
Definition ahead_at_most (n k : nat) (h : list (nat * E)) : Prop :=
  forall h1 h2 i j, h = h1 ++ h2 -> (i < n)%nat -> (j < n)%nat ->
    (length (stream i h1) <= length (stream j h1) + k)%nat.
End Spec.
