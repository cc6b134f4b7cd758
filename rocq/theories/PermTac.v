(** A small tactic for permutations of concatenations (no model content). *)
From Coq Require Import List Permutation.
Import ListNotations.

Lemma perm_rot_r {A} (l h t : list A) : Permutation l (t ++ h) -> Permutation l (h ++ t).
Proof. intros H. rewrite H. apply Permutation_app_comm. Qed.

Ltac perm_cons_to_app :=
  repeat match goal with
  | |- context [?x :: ?l] =>
      lazymatch l with
      | nil => fail
      | _ => change (x :: l) with ([x] ++ l)
      end
  end.

Ltac perm_norm := perm_cons_to_app; repeat rewrite <- app_assoc; rewrite ?app_nil_l, ?app_nil_r.

Ltac perm_find n :=
  lazymatch n with
  | O => fail
  | S ?n' =>
      lazymatch goal with
      | |- Permutation (?x ++ _) (?x ++ _) => apply Permutation_app_head
      | |- Permutation (?x ++ ?l) ?x => fail
      | |- Permutation _ (_ ++ _) =>
          apply perm_rot_r; repeat rewrite <- app_assoc; perm_find n'
      end
  end.

(** Solves goals that hold by commutativity and associativity of [++] alone. *)
Ltac perm :=
  perm_norm;
  repeat first [ apply Permutation_refl | perm_find 30 ].
