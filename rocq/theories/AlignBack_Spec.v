(** Vocabulary for an aligner whose output callbacks set periods. *)
From Coq Require Import List Arith ZArith Bool.
From Verif Require Import Base Aligner_Model AlignBack_Model.
Import ListNotations.
Local Open Scope Z_scope.

Section Spec.
Context {E : Type}.

(** All calls, from outside and from callbacks, in the order in which they were made. *)
Definition history (tr : list (item E)) : list (op E) :=
  flat_map (fun x => match x with Main o | Inside o => [o] | Forward _ _ _ => [] end) tr.

(** The calls made from outside. *)
Definition main_calls (tr : list (item E)) : list (op E) :=
  flat_map (fun x => match x with Main o => [o] | _ => [] end) tr.

(** The calls at the front of [tr] that a callback made. *)
Fixpoint calls_inside (tr : list (item E)) : list (op E) :=
  match tr with Inside o :: tr' => o :: calls_inside tr' | _ => [] end.

(** The callback only sets periods, of inputs that exist. *)
Definition only_periods (n : nat) (cb : list (nat * E) -> list status -> list (op E)) : Prop :=
  forall o st x, In x (cb o st) -> exists i p, x = SetPeriod i p /\ (i < n)%nat.

(** The first thing the callback does is to add a message or to dispatch. *)
Definition locks_first (cb : list (nat * E) -> list status -> list (op E)) : Prop :=
  forall o st, exists x rest, cb o st = x :: rest /\ (x = Dispatch \/ exists i e, x = Add i e).
End Spec.
