(** Independent vocabulary for comparisons. *)
From Coq Require Import List Arith Bool.
From Verif Require Import Base RclTime.

(** std::less on pointers. *)
Record pointer_order (less : nat -> nat -> bool) : Prop := mkPointerOrder {
  po_irreflexive : forall a, less a a = false;
  po_transitive : forall a b c, less a b = true -> less b c = true -> less a c = true;
  po_total : forall a b, a <> b -> less a b = true \/ less b a = true }.

(** A comparison that may throw holds. *)
Definition holds (r : res bool) : Prop := r = Ok true.
Definition fails (r : res bool) : Prop := r = Ok false.
Definition throws (r : res bool) : Prop := r = Err Thrown.

