(** Shared vocabulary: results of C++ code, list updates.  Not a model of any
    particular file; used by all models. *)
From Coq Require Import List Arith ZArith Lia Bool.
Import ListNotations.

(** The ways a piece of C++ code can fail.  They are kept apart so that
    "never fails" theorems exclude every one of them explicitly. *)
Inductive err : Type :=
| AssertFailed   (** [assert(...)] evaluated to false *)
| UB             (** undefined behaviour: empty container access, bad index,
                     indeterminate read, use after free *)
| Thrown         (** a C++ exception left the function *)
| Deadlock       (** a non-recursive mutex is locked again by its owner *)
| OutOfFuel.     (** the loop was cut by the model's fuel; shown unreachable *)

Inductive res (A : Type) : Type :=
| Ok (a : A)
| Err (e : err).
Arguments Ok {A} a.
Arguments Err {A} e.

(** Sequencing: an error ends the computation *)
Definition bind {A B} (m : res A) (k : A -> res B) : res B :=
  match m with Ok a => k a | Err e => Err e end.

Notation "'do' x <- m ; k" := (bind m (fun x => k))
  (at level 200, x name, m at level 100, k at level 200, right associativity).
Notation "'do' ' p <- m ; k" := (bind m (fun x => match x with p => k end))
  (at level 200, p pattern, m at level 100, k at level 200, right associativity).

(** [upd n x l]: list [l] with position [n] replaced by [x] (unchanged if [n] is
    out of range). *)
Fixpoint upd {A} (n : nat) (x : A) (l : list A) : list A :=
  match l, n with
  | [], _ => []
  | _ :: t, O => x :: t
  | h :: t, S n' => h :: upd n' x t
  end.

Lemma upd_length {A} n (x : A) l : length (upd n x l) = length l.
Proof. revert n; induction l as [|h t IH]; intros [|n]; cbn; auto. Qed.

Lemma nth_upd_eq {A} n (x d : A) l : n < length l -> nth n (upd n x l) d = x.
Proof.
  revert n; induction l as [|h t IH]; intros [|n] H; cbn in *; try lia; auto.
  apply IH; lia.
Qed.

Lemma nth_upd_neq {A} n m (x d : A) l : n <> m -> nth m (upd n x l) d = nth m l d.
Proof.
  revert n m; induction l as [|h t IH]; intros [|n] [|m] H; cbn in *; try lia; auto.
Qed.

Lemma nth_upd {A} n m (x d : A) l :
  nth m (upd n x l) d = if Nat.eqb n m then (if Nat.ltb n (length l) then x else nth m l d) else nth m l d.
Proof.
  destruct (Nat.eqb_spec n m) as [->|H].
  - destruct (Nat.ltb_spec m (length l)).
    + now apply nth_upd_eq.
    + rewrite !nth_overflow; auto. rewrite upd_length; lia.
  - now apply nth_upd_neq.
Qed.

Lemma upd_nth_id {A} n (d : A) l : upd n (nth n l d) l = l.
Proof. revert n; induction l as [|h t IH]; intros [|n]; cbn; auto. now rewrite IH. Qed.

Lemma upd_upd {A} n (x y : A) l : upd n x (upd n y l) = upd n x l.
Proof. revert n; induction l as [|h t IH]; intros [|n]; cbn; auto. now rewrite IH. Qed.

Lemma map_upd {A B} (f : A -> B) n x l : map f (upd n x l) = upd n (f x) (map f l).
Proof. revert n; induction l as [|h t IH]; intros [|n]; cbn; auto. now rewrite IH. Qed.

Lemma list_eq_nth {A} (d : A) l l' :
  length l = length l' -> (forall i, i < length l -> nth i l d = nth i l' d) -> l = l'.
Proof.
  revert l'; induction l as [|h t IH]; intros [|h' t'] HL H; cbn in *; try lia; auto.
  f_equal. { apply (H 0); lia. }
  apply IH; [lia|]. intros i Hi. apply (H (S i)); lia.
Qed.
