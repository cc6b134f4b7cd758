(** Messages that reach a synchronizer in the order of their stamps, as behind an InputAligner. *)
From Coq Require Import List Arith ZArith Sorted.
From Verif Require Import Base Trace.
Import ListNotations.
Local Open Scope Z_scope.

Section Spec.
Context {E : Type} (stamp : E -> Z).

(** The messages arrive in the order of the stamps, whatever the input. *)
Definition arrives_in_order (h : list (nat * E)) : Prop := nondecreasing (fun x => stamp (snd x)) h.
End Spec.
