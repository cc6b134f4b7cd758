(** Specification vocabulary shared by all components: subsequences, per-input
    streams of a history, prefixes.  Nothing here refers to a model. *)
From Coq Require Import List Arith ZArith Lia Bool Permutation Sorted.
Import ListNotations.

(** [subseq a b]: [a] is obtained from [b] by deleting elements. *)
Inductive subseq {A} : list A -> list A -> Prop :=
| subseq_nil l : subseq [] l
| subseq_take x a b : subseq a b -> subseq (x :: a) (x :: b)
| subseq_skip x a b : subseq a b -> subseq a (x :: b).

(** A history of a multi-input filter is a list of (input index, message). *)
Definition stream {E} (i : nat) (h : list (nat * E)) : list E :=
  map snd (filter (fun ie => Nat.eqb (fst ie) i) h).

(** The [i]-th components of a list of output sets. *)
Definition column {E} (i : nat) (outs : list (list E)) : list E :=
  flat_map (fun s => match nth_error s i with Some e => [e] | None => [] end) outs.

Definition prefix {A} (a b : list A) : Prop := exists c, b = a ++ c.

(** Strictly increasing / non-decreasing with respect to a [Z]-valued key. *)
Definition strictly_increasing {E} (key : E -> Z) (l : list E) : Prop :=
  StronglySorted (fun a b => (key a < key b)%Z) l.
Definition nondecreasing {E} (key : E -> Z) (l : list E) : Prop :=
  StronglySorted (fun a b => (key a <= key b)%Z) l.

(* ------------------------------------------------------------------ *)
(** Lemmas about this vocabulary. *)

Lemma subseq_refl {A} (l : list A) : subseq l l.
Proof. induction l; constructor; auto. Qed.

Lemma subseq_app_skip {A} (c a b : list A) : subseq a b -> subseq a (c ++ b).
Proof. induction c; cbn; auto. intros; constructor; auto. Qed.

Lemma subseq_app {A} (a b c d : list A) : subseq a b -> subseq c d -> subseq (a ++ c) (b ++ d).
Proof.
  induction 1; cbn; intros.
  - now apply subseq_app_skip.
  - constructor; auto.
  - constructor; auto.
Qed.

Lemma subseq_trans {A} (a b c : list A) : subseq a b -> subseq b c -> subseq a c.
Proof.
  intros H1 H2; revert a H1; induction H2; intros a' H1.
  - inversion H1; constructor.
  - inversion H1; subst; constructor; auto.
  - constructor; auto.
Qed.

Lemma subseq_in {A} (a b : list A) x : subseq a b -> In x a -> In x b.
Proof. induction 1; cbn; intuition. Qed.

Lemma subseq_length {A} (a b : list A) : subseq a b -> length a <= length b.
Proof. induction 1; cbn; lia. Qed.

Lemma subseq_sorted {A} (R : A -> A -> Prop) a b :
  subseq a b -> StronglySorted R b -> StronglySorted R a.
Proof.
  induction 1; intros HS.
  - constructor.
  - inversion HS; subst. constructor; auto.
    rewrite Forall_forall in *. intros y Hy. apply H3. eapply subseq_in; eauto.
  - inversion HS; subst; auto.
Qed.

Lemma subseq_nodup {A} (a b : list A) : subseq a b -> NoDup b -> NoDup a.
Proof.
  induction 1; intros HN.
  - constructor.
  - inversion HN; subst. constructor; auto. intros Hin. apply H2. eapply subseq_in; eauto.
  - inversion HN; subst; auto.
Qed.

Lemma stream_app {E} i (a b : list (nat * E)) : stream i (a ++ b) = stream i a ++ stream i b.
Proof. unfold stream. now rewrite filter_app, map_app. Qed.

Lemma stream_cons {E} i j (e : E) h :
  stream i ((j, e) :: h) = if Nat.eqb j i then e :: stream i h else stream i h.
Proof. unfold stream; cbn. destruct (Nat.eqb j i); reflexivity. Qed.

Lemma stream_in {E} i (e : E) h : In e (stream i h) <-> In (i, e) h.
Proof.
  unfold stream. rewrite in_map_iff. split.
  - intros [[j x] [H1 H2]]; cbn in *; subst. apply filter_In in H2 as [H2 H3]; cbn in *.
    apply Nat.eqb_eq in H3; subst; auto.
  - intros H. exists (i, e); split; auto. apply filter_In; split; cbn; auto. apply Nat.eqb_refl.
Qed.

Lemma column_app {E} i (a b : list (list E)) : column i (a ++ b) = column i a ++ column i b.
Proof. unfold column. now rewrite flat_map_app. Qed.

Lemma prefix_refl {A} (a : list A) : prefix a a.
Proof. exists []. now rewrite app_nil_r. Qed.

Lemma prefix_app {A} (a b : list A) : prefix a (a ++ b).
Proof. now exists b. Qed.

Lemma prefix_trans {A} (a b c : list A) : prefix a b -> prefix b c -> prefix a c.
Proof. intros [x ->] [y ->]. exists (x ++ y). now rewrite app_assoc. Qed.

Lemma StronglySorted_app {A} (R : A -> A -> Prop) a b :
  StronglySorted R (a ++ b) <->
  StronglySorted R a /\ StronglySorted R b /\ (forall x y, In x a -> In y b -> R x y).
Proof.
  induction a as [|h t IH]; cbn.
  - split; [intros; repeat split; auto; [constructor|tauto] | tauto].
  - split.
    + intros H; inversion H; subst. apply IH in H2 as (H4 & H5 & H6).
      rewrite Forall_forall in H3.
      repeat split; auto.
      * constructor; auto. rewrite Forall_forall. intros; apply H3, in_or_app; auto.
      * intros x y [->|Hx] Hy; auto. apply H3, in_or_app; auto.
    + intros (H1 & H2 & H3). inversion H1; subst. constructor.
      * apply IH. repeat split; auto.
      * rewrite Forall_forall in *. intros y Hy. apply in_app_or in Hy as [Hy|Hy]; auto.
Qed.
