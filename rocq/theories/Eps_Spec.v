(** Independent vocabulary for ApproximateEpsilonTime. *)
From Coq Require Import List Arith ZArith Bool.
From Verif Require Import Base Trace.
Import ListNotations.
Local Open Scope Z_scope.

Section Spec.
Context {E : Type} (stamp : E -> Z).

Definition well_indexed (n : nat) (h : list (nat * E)) : Prop :=
  forall i e, In (i, e) h -> (i < n)%nat.

(** Every two stamps of the set differ by at most [eps]. *)
Definition fits (eps : Z) (set : list E) : Prop :=
  forall a b, In a set -> In b set -> stamp a - stamp b <= eps.

(** Each input is time-ordered (equal stamps allowed). *)
Definition time_ordered (n : nat) (h : list (nat * E)) : Prop :=
  forall i, (i < n)%nat -> nondecreasing stamp (stream i h).

(** Two messages could be in one set. *)
Definition close (eps : Z) (x y : E) : Prop := Z.abs (stamp x - stamp y) <= eps.

(** The received messages fall into well-separated groups: being close is transitive. *)
Definition close_transitive (eps : Z) (h : list (nat * E)) : Prop :=
  forall i j k x y z, In (i, x) h -> In (j, y) h -> In (k, z) h ->
    close eps x y -> close eps y z -> close eps x z.
End Spec.
