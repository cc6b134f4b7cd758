From Coq Require Import List Arith ZArith Lia Bool Sorted Permutation.
From Verif Require Import Base RclTime Trace Eps_Model Eps_Spec Eps_Proofs EpsOrder_Spec EpsOrder_Proofs EpsOrder_Props Merged_Spec.
Import ListNotations.
Local Open Scope Z_scope.

Section Proofs.
Context {E : Type} (stamp : E -> Z).
Variable n : nat.
Variable q : nat.
Variable eps : Z.
Hypothesis Hmax : forall e, stamp e <= int64_max.
Hypothesis Heps : 0 <= eps.
Hypothesis Hq : (0 < q)%nat.
Notation add := (add stamp n q eps).
Notation run := (run stamp n q eps).
Notation read := (read stamp eps).
Notation close := (close stamp eps).

Lemma arrives_snoc (h : list (nat * E)) i e : arrives_in_order stamp (h ++ [(i, e)]) ->
  arrives_in_order stamp h /\ forall j x, In (j, x) h -> stamp x <= stamp e.
Proof.
  intros H. apply StronglySorted_app in H as (H1 & _ & H2). split; auto. intros j x Hx. apply (H2 (j, x) (i, e)); cbn; auto.
Qed.

Lemma at_map (f : list E -> list E) j Q : f [] = [] -> at_ j (map f Q) = f (at_ j Q).
Proof. intros Hf. unfold at_. rewrite <- Hf at 1. apply map_nth. Qed.

Lemma read_in Q o R j x : read Q o R -> In x (at_ j R) -> In x (at_ j Q).
Proof.
  induction 1 as [Q|Q hs o R Hf Hfit H IH|Q hs m o R Hf Hfit Hm Hmin H IH]; intros Hx; auto.
  - apply IH in Hx. rewrite at_map in Hx by reflexivity. destruct (at_ j Q); cbn in *; auto.
  - apply IH in Hx. rewrite at_map in Hx by reflexivity. destruct (at_ j Q) as [|a v]; cbn in *; auto.
    destruct (stamp a <=? stamp m + eps); cbn in *; auto.
Qed.

Lemma first_at (Q : list (list E)) hs j a v : first_of Q hs -> at_ j Q = a :: v -> nth_error hs j = Some a /\ In a hs.
Proof.
  intros Hf Ha. assert (nth_error hs j = Some a); [|split; auto; eapply nth_error_In; eauto].
  unfold first_of in Hf. apply (f_equal (fun l => nth_error l j)) in Hf. rewrite !nth_error_map in Hf.
  unfold at_ in Ha. destruct (nth_error Q j) as [w|] eqn:Ew.
  - rewrite (nth_error_nth _ _ [] Ew) in Ha. subst w. cbn in Hf. destruct (nth_error hs j); cbn in Hf; congruence.
  - apply nth_error_None in Ew. rewrite nth_overflow in Ha by auto. discriminate.
Qed.

Lemma first_some (Q : list (list E)) hs j : first_of Q hs -> (j < length Q)%nat -> exists a v, at_ j Q = a :: v.
Proof.
  intros Hf Hj. destruct (at_ j Q) as [|a v] eqn:Ha; eauto. exfalso. eapply first_of_no_empty; eauto. rewrite <- Ha. now apply at_in.
Qed.

(** [x] of input [j] may still become part of a set: nothing later than its group has been received, and some input
    lacks a message of its group. *)
Definition open_ (h : list (nat * E)) (x : E) : Prop :=
  (forall k y, In (k, y) h -> stamp y <= stamp x + eps) /\
  exists i, (i < n)%nat /\ forall y, In (i, y) h -> ~ close x y.

Lemma keep Q o R h j x : read Q o R -> length Q = n -> (forall k y, In y (at_ k Q) -> In (k, y) h) -> open_ h x ->
  In x (at_ j Q) -> In x (at_ j R).
Proof.
  intros H. induction H as [Q|Q hs o R Hf Hfit H IH|Q hs m o R Hf Hfit Hm Hmin H IH]; intros HL Hin Hop Hx; auto.
  - apply IH; auto; [now rewrite map_length| |].
    + intros k y Hy. rewrite at_map in Hy by reflexivity. apply Hin. destruct (at_ k Q); cbn in *; auto.
    + rewrite at_map by reflexivity. destruct (at_ j Q) as [|a v] eqn:Ha; [auto|]. destruct Hx as [->|Hx]; auto. exfalso.
      destruct Hop as (_ & i & Hi & Hno). destruct (first_some Q hs i Hf ltac:(lia)) as (b & w & Hb).
      apply (Hno b); [apply Hin; rewrite Hb; cbn; auto|].
      destruct (first_at Q hs j x v Hf Ha) as [_ I1]. destruct (first_at Q hs i b w Hf Hb) as [_ I2].
      pose proof (Hfit x b I1 I2). pose proof (Hfit b x I2 I1). unfold Eps_Spec.close. lia.
  - apply IH; auto; [now rewrite map_length| |].
    + intros k y Hy. rewrite at_map in Hy by reflexivity. apply Hin. destruct (at_ k Q) as [|a v]; cbn in *; auto.
      destruct (stamp a <=? stamp m + eps); cbn in *; auto.
    + rewrite at_map by reflexivity. destruct (at_ j Q) as [|a v] eqn:Ha; [auto|]. cbn.
      destruct (Z.leb_spec (stamp a) (stamp m + eps)) as [Hle|]; auto. destruct Hx as [->|Hx]; auto. exfalso.
      destruct Hop as (Hall & i & Hi & Hno). destruct (first_some Q hs i Hf ltac:(lia)) as (b & w & Hb).
      assert (Ib : In (i, b) h) by (apply Hin; rewrite Hb; cbn; auto).
      apply (Hno b Ib). destruct (first_at Q hs i b w Hf Hb) as [_ I2]. pose proof (Hmin b I2). pose proof (Hall i b Ib).
      unfold Eps_Spec.close. lia.
Qed.

Lemma group_same h X i a k y : one_per_group stamp eps h -> group stamp n eps h X ->
  nth_error X i = Some a -> In (k, y) h -> close y a -> forall x, nth_error X k = Some x -> y = x.
Proof.
  intros (HT & _ & H1) (_ & HF & HX) Ha Hy Hc x Hx. apply (H1 k); auto. apply (HT k i k y a x); auto.
  apply nth_error_In in Ha, Hx. pose proof (HF a x Ha Hx). pose proof (HF x a Hx Ha). unfold Eps_Spec.close. lia.
Qed.

Lemma found Q o R h X : read Q o R -> length Q = n -> In [] R -> (forall k y, In y (at_ k Q) -> In (k, y) h) ->
  one_per_group stamp eps h -> group stamp n eps h X ->
  (forall k y x, In (k, y) h -> In x X -> stamp y <= stamp x + eps) ->
  (forall j x, nth_error X j = Some x -> In x (at_ j Q)) -> In X o.
Proof.
  intros H. induction H as [Q|Q hs o R Hf Hfit H IH|Q hs m o R Hf Hfit Hm Hmin H IH]; intros HL HR Hin H1 HG Hlate HX.
  - exfalso. apply In_nth_error in HR as (j & Hj). assert (j < n)%nat by (rewrite <- HL; apply nth_error_Some; congruence).
    destruct (nth_error X j) as [x|] eqn:Ex; [|apply nth_error_None in Ex; destruct HG; lia].
    apply HX in Ex. unfold at_ in Ex. now rewrite (nth_error_nth _ _ _ Hj) in Ex.
  - assert (HLh : length hs = n) by (rewrite <- HL; unfold first_of in Hf; apply (f_equal (@length _)) in Hf; now rewrite !map_length in Hf).
    destruct (some_or_all n (fun j x => nth_error X j = Some x /\ nth_error hs j = Some x)
                (fun j x => nth_error X j = Some x /\ In x (at_ j (map (@tl E) Q)))) as [(j & x & Ex & Eh)|Hall].
    { intros j Hj. destruct (nth_error X j) as [x|] eqn:Ex; [|apply nth_error_None in Ex; destruct HG; lia].
      pose proof (HX j x Ex) as Hx. rewrite at_map by reflexivity. destruct (at_ j Q) as [|a v] eqn:Ha; [destruct Hx|].
      destruct Hx as [->|Hx]; [left|right]; eauto. exists x. split; auto. now apply (first_at Q hs j x v). }
    + left. apply nth_error_ext_eq. intros k. destruct (lt_dec k n) as [Hk|Hk].
      * destruct (first_some Q hs k Hf ltac:(lia)) as (b & w & Hb). destruct (first_at Q hs k b w Hf Hb) as [Eb Ib].
        destruct (nth_error X k) as [y|] eqn:Ey; [|apply nth_error_None in Ey; destruct HG; lia]. rewrite Eb. f_equal.
        apply (group_same h X j x k b); auto; [apply Hin; rewrite Hb; cbn; auto|].
        apply nth_error_In in Eh. pose proof (Hfit b x Ib Eh). pose proof (Hfit x b Eh Ib). unfold Eps_Spec.close. lia.
      * rewrite !(proj2 (nth_error_None _ _)); auto; [destruct HG; lia|lia].
    + right. apply IH; auto; [now rewrite map_length| |].
      * intros k y Hy. rewrite at_map in Hy by reflexivity. apply Hin. destruct (at_ k Q); cbn in *; auto.
      * intros j x Ex. destruct (Hall j) as (x' & Ex' & Hx'); [destruct HG as [HG _]; rewrite <- HG; apply nth_error_Some; congruence|].
        congruence.
  - apply IH; auto; [now rewrite map_length| |].
    + intros k y Hy. rewrite at_map in Hy by reflexivity. apply Hin. destruct (at_ k Q) as [|a v]; cbn in *; auto.
      destruct (stamp a <=? stamp m + eps); cbn in *; auto.
    + intros j x Ex. pose proof (HX j x Ex) as Hx. rewrite at_map by reflexivity. destruct (at_ j Q) as [|a v] eqn:Ha; [auto|]. cbn.
      destruct (Z.leb_spec (stamp a) (stamp m + eps)) as [Hle|]; auto. destruct Hx as [->|Hx]; auto. exfalso. apply Hfit.
      assert (HLh : length hs = n) by (rewrite <- HL; unfold first_of in Hf; apply (f_equal (@length _)) in Hf; now rewrite !map_length in Hf).
      assert (Heq : forall b, In b hs -> In b X).
      { intros b Ib. apply In_nth_error in Ib as (k & Ek). assert (Hk : (k < n)%nat) by (rewrite <- HLh; apply nth_error_Some; congruence).
        destruct (first_some Q hs k Hf ltac:(lia)) as (b' & w & Hb). destruct (first_at Q hs k b' w Hf Hb) as [Eb Ib].
        assert (b' = b) as -> by congruence.
        destruct (nth_error X k) as [y|] eqn:Ey; [|apply nth_error_None in Ey; destruct HG; lia].
        assert (Ikb : In (k, b) h) by (apply Hin; rewrite Hb; cbn; auto).
        replace b with y; [eapply nth_error_In; eauto|]. symmetry.
        apply (group_same h X j x k b); auto. pose proof (Hmin b Ib). pose proof (Hlate k b x Ikb (nth_error_In _ _ Ex)). unfold Eps_Spec.close. lia. }
      intros b b' Hb Hb'. apply (proj1 (proj2 HG)); auto.
Qed.

Lemma one_per_group_app h h' : one_per_group stamp eps (h ++ h') -> one_per_group stamp eps h.
Proof.
  intros (H1 & H2 & H3). assert (HI : forall x, In x h -> In x (h ++ h')) by (intros; apply in_or_app; auto). split; [|split].
  - intros i j k x y z Hx Hy Hz. apply (H1 i j k); auto.
  - intros i. specialize (H2 i). rewrite stream_app in H2. revert H2. generalize (stream i h) as l. clear. intros l. generalize (stream i h') as r. intros r. induction l as [|a l IH]; intros H; [constructor|].
    cbn in H. inversion H; subst. constructor; auto. intros Ha. apply H2. apply in_or_app; auto.
  - intros i x y Hx Hy. apply (H3 i); auto.
Qed.

Definition P (h : list (nat * E)) (s : state E) (outs : list (list E)) : Prop :=
  arrives_in_order stamp h -> one_per_group stamp eps h ->
  (forall j x, In x (at_ j (events s)) -> In (j, x) h) /\
  (forall j x, In (j, x) h -> open_ h x -> In x (at_ j (events s))) /\
  forall X, group stamp n eps h X -> In X outs.

Lemma step_P h s outs i e : (0 < n)%nat -> (i < n)%nat -> Inv n s -> count s <> n -> P h s outs ->
  exists s' o, add s (i, e) = Ok (s', o) /\ Inv n s' /\ count s' <> n /\ P (h ++ [(i, e)]) s' (outs ++ o).
Proof.
  intros Hn Hi HI Hc HP.
  assert (HQin : (forall j x, In x (at_ j (events s)) -> In (j, x) h) ->
     forall j x, In x (at_ j (events (pushed s i e))) -> In (j, x) (h ++ [(i, e)])).
  { intros H0 j x Hx. rewrite (pushed_at n) in Hx by auto. apply in_or_app. apply in_app_or in Hx as [Hx|Hx]; auto.
    destruct (Nat.eqb_spec j i) as [->|]; [|destruct Hx]. destruct Hx as [->|[]]. right. cbn; auto. }
  assert (HQopen : (forall j x, In (j, x) h -> open_ h x -> In x (at_ j (events s))) ->
     forall j x, In (j, x) (h ++ [(i, e)]) -> open_ (h ++ [(i, e)]) x -> In x (at_ j (events (pushed s i e)))).
  { intros H0 j x Hx Hop. rewrite (pushed_at n) by auto. apply in_or_app. apply in_app_or in Hx as [Hx|[Hx|[]]].
    - left. apply H0; auto. destruct Hop as (Ha & k & Hk & Hno). split.
      + intros k' y Hy. apply (Ha k'). apply in_or_app; auto.
      + exists k. split; auto. intros y Hy. apply Hno. apply in_or_app; auto.
    - injection Hx as -> ->. rewrite Nat.eqb_refl. cbn; auto. }
  (* a group completed by the new message: all queues have a message, the new one is alone in its queue *)
  assert (HQfull : (forall j x, In (j, x) h -> open_ h x -> In x (at_ j (events s))) ->
     (forall X, group stamp n eps h X -> In X outs) ->
     arrives_in_order stamp (h ++ [(i, e)]) -> one_per_group stamp eps (h ++ [(i, e)]) ->
     forall X, group stamp n eps (h ++ [(i, e)]) X -> In X outs \/
       count (pushed s i e) = n /\ In e X /\ forall j x, nth_error X j = Some x -> In x (at_ j (events (pushed s i e)))).
  { intros H0 H2 Hord H1 X HG. pose proof HG as (HLX & HFX & HX). destruct (arrives_snoc h i e Hord) as [_ Hle].
    destruct (some_or_all n (fun j x => nth_error X j = Some x /\ (j, x) = (i, e)) (fun j x => nth_error X j = Some x /\ In (j, x) h))
      as [(j & x & Ex & Ee)|Hall].
    { intros j Hj. destruct (nth_error X j) as [x|] eqn:Ex; [|apply nth_error_None in Ex; lia].
      specialize (HX j x Ex). apply in_app_or in HX as [HX|[HX|[]]]; [right|left]; eauto. }
    2:{ left. apply H2. split; auto. split; auto. intros j x Ex.
        destruct (Hall j) as (x' & Ex' & Hx'); [rewrite <- HLX; apply nth_error_Some; congruence|]. congruence. }
    injection Ee as -> ->. right.
    assert (Hoth : forall j x, j <> i -> nth_error X j = Some x -> In x (at_ j (events s))).
    { intros j x Hji Exj. pose proof (HX j x Exj) as Hin. apply in_app_or in Hin as [Hin|[Hin|[]]]; [|congruence].
      assert (Hcx : close x e).
      { apply nth_error_In in Ex, Exj. pose proof (HFX x e Exj Ex). pose proof (HFX e x Ex Exj). unfold Eps_Spec.close. lia. }
      apply H0; auto. split.
      - intros k y Hy. apply Hle in Hy. unfold Eps_Spec.close in Hcx. lia.
      - exists i. split; auto. intros y Hy Hc'. destruct H1 as (HT & HN & H1).
        assert (y = e).
        { apply (H1 i); [apply in_or_app; auto|apply in_or_app; cbn; auto|].
          apply (HT i j i y x e); try (apply in_or_app; cbn; auto); auto. unfold Eps_Spec.close in *. lia. }
        subst y. specialize (HN i). rewrite stream_app in HN. unfold stream in HN at 2. cbn in HN. rewrite Nat.eqb_refl in HN. cbn in HN.
        apply NoDup_remove_2 in HN. apply HN. rewrite app_nil_r. now apply stream_in. }
    assert (HinQ : forall j x, nth_error X j = Some x -> In x (at_ j (events (pushed s i e)))).
    { intros j x Exj. rewrite (pushed_at n) by auto. apply in_or_app. destruct (Nat.eqb_spec j i) as [->|Hji].
      - right. cbn. left. congruence.
      - left. auto. }
    split; [|split; auto; eapply nth_error_In; eauto].
    destruct (pushed_inv n s i e Hi HI) as [HLQ HCQ]. rewrite HCQ, <- HLQ. apply cnt_full. intros v Hv ->.
    apply In_nth_error in Hv as (j & Hj). assert (j < n)%nat by (rewrite <- HLQ; apply nth_error_Some; congruence).
    destruct (nth_error X j) as [x|] eqn:Exj; [|apply nth_error_None in Exj; lia]. apply HinQ in Exj.
    unfold at_ in Exj. now rewrite (nth_error_nth _ _ _ Hj) in Exj. }
  destruct (add_cases stamp n q eps s i e Hi HI) as [(H1 & H2)|[(H1 & H2 & H3)|(H1 & H2 & s2 & H3 & H4 & H5 & H6)]].
  - destruct (process_ind stamp n eps Hmax Heps (fun s' o => read (events (pushed s i e)) o (events s')) ltac:(lia))
      with (fuel := S (total (pushed s i e))) (s := pushed s i e) (outs := @nil (list E)) as (s' & o & Hp & HR & HI' & Hc'); auto.
    { intros a b o outs' Ha HIa Hca Hit _. eapply read_trans; eauto. now apply (iter_read stamp n). }
    { now apply pushed_inv. }
    { constructor. }
    exists s', o. rewrite H2. split; auto. split; auto. split; auto. intros Hord H1g.
    destruct (arrives_snoc h i e Hord) as [Hord0 Hle]. destruct (HP Hord0 (one_per_group_app _ _ H1g)) as (P0 & P1 & P2).
    destruct (pushed_inv n s i e Hi HI) as [HLQ _].
    split; [|split].
    + intros j x Hx. eapply HQin; auto. eapply read_in; eauto.
    + intros j x Hx Hop. apply (keep (events (pushed s i e)) o (events s') (h ++ [(i, e)])); auto.
    + intros X HG. apply in_or_app. destruct (HQfull P1 P2 Hord H1g X HG) as [|(_ & HeX & HX)]; auto. right.
      apply (found (events (pushed s i e)) o (events s') (h ++ [(i, e)])); auto; [now apply (not_full_empty n)|].
      intros k y x Hy Hx. assert (stamp y <= stamp e).
      { apply in_app_or in Hy as [Hy|[Hy|[]]]; [eauto|]. injection Hy as <- <-. lia. }
      pose proof (proj1 (proj2 HG) e x HeX Hx). lia.
  - exists (pushed s i e), []. split; auto. split; [now apply pushed_inv|]. split; auto. intros Hord H1g.
    destruct (arrives_snoc h i e Hord) as [Hord0 Hle]. destruct (HP Hord0 (one_per_group_app _ _ H1g)) as (P0 & P1 & P2).
    split; [auto|split; [auto|]]. intros X HG. rewrite app_nil_r. destruct (HQfull P1 P2 Hord H1g X HG) as [|(Hbad & _)]; auto. congruence.
  - exists s2, []. split; auto. split; auto.
    assert (count s2 <> n) as Hc2.
    { destruct (pushed_inv n s i e Hi HI) as [HL HC]. pose proof (cnt_le (events (pushed s i e))). lia. }
    split; auto. intros Hord H1g.
    destruct (arrives_snoc h i e Hord) as [Hord0 Hle]. destruct (HP Hord0 (one_per_group_app _ _ H1g)) as (P0 & P1 & P2).
    split; [|split].
    + intros j x Hx. apply HQin; auto. rewrite H6 in Hx. destruct (Nat.eqb j i); auto. destruct (at_ j (events (pushed s i e))); cbn in *; auto.
    + intros j x Hx Hop. pose proof (HQopen P1 j x Hx Hop) as HxQ. rewrite H6. destruct (Nat.eqb_spec j i) as [->|]; auto.
      assert (x = e).
      { apply in_app_or in Hx as [Hx|[Hx|[]]]; [|congruence]. destruct H1g as (_ & _ & H1g).
        apply (H1g i); [apply in_or_app; auto|apply in_or_app; cbn; auto|]. destruct Hop as [Ha _].
        specialize (Ha i e). specialize (Hle i x Hx). unfold Eps_Spec.close.
        assert (In (i, e) (h ++ [(i, e)])) by (apply in_or_app; cbn; auto). specialize (Ha H). lia. }
      subst x. rewrite (pushed_at n), Nat.eqb_refl in * by auto. rewrite app_length in H2. cbn in H2.
      destruct (at_ i (events s)) as [|a v]; cbn in *; [lia|]. apply in_or_app. cbn; auto.
    + intros X HG. rewrite app_nil_r. destruct (HQfull P1 P2 Hord H1g X HG) as [|(Hbad & _)]; auto. congruence.
Qed.

Lemma run_P h : (0 < n)%nat -> well_indexed n h -> exists s outs, run (init n) h = Ok (s, outs) /\ P h s outs.
Proof.
  intros Hn HW.
  destruct (run_ind stamp n q eps P Hn) with (h := h) as (s & outs & Hr & _ & _ & HP); eauto.
  - intros _ _. split; [|split].
    + intros j x Hx. exfalso. unfold at_ in Hx. cbn in Hx. rewrite nth_repeat in Hx. destruct Hx.
    + intros j x [].
    + intros X (HL & _ & HX). exfalso. destruct X as [|x X]; [cbn in HL; lia|]. apply (HX 0%nat x eq_refl).
  - intros. now apply step_P.
Qed.
End Proofs.
