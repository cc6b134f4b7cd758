From Coq Require Import List Arith ZArith Lia Bool Sorted Permutation.
From Verif Require Import Base Trace Exact_Model Exact_Spec Exact_Proofs ExactBound_Spec.
Import ListNotations.
Local Open Scope Z_scope.

Section Proofs.
Context {E : Type} (stamp : E -> Z).
Variable n : nat.
Variable q : nat.
Notation add := (add stamp n q).
Notation run := (run stamp n q).
Notation tuple := (list (option E)).

(** every key is the stamp of a received message *)
Lemma run_keys h : well_indexed n h ->
  forall kt, In kt (tuples (fst (run init h))) -> exists j x, In (j, x) h /\ stamp x = fst kt.
Proof.
  induction h as [|[i e] h IH] using rev_ind; intros HW kt Hkt; [destruct Hkt|].
  apply well_indexed_app in HW as [HW Hi0]. assert (Hi : (i < n)%nat) by (eapply Hi0; cbn; auto).
  rewrite run_snoc in Hkt. cbn [fst] in Hkt.
  pose proof (add_desc stamp n q h _ i e Hi (run_inv stamp n q h HW)) as HD.
  inversion HD as [a b t0 s' os Ha Hb Hm Hcase Hs' Hos]. clear HD. cbv zeta in Hcase.
  assert (Hab : In kt (a ++ b) -> In kt (tuples (fst (run init h)))).
  { destruct Hm as [[Hm _]|Hm]; rewrite Hm; auto. rewrite !in_app_iff. cbn. tauto. }
  assert (In kt (a ++ (stamp e, upd i (Some e) t0) :: b)) as Hin.
  { destruct Hcase as [(ss & _ & Hs & _)|[(_ & _ & Hs & _)|(_ & _ & _ & Hs & _)]]; rewrite Hs in Hkt; cbn [tuples] in Hkt; auto.
    - apply in_or_app; cbn; auto.
    - destruct (a ++ _); cbn in *; auto. }
  apply in_app_or in Hin as [Hin|[<-|Hin]].
  - destruct (IH HW kt) as (j & x & H1 & H2); [apply Hab, in_or_app; auto|]. exists j, x. split; auto. apply in_or_app; auto.
  - exists i, e. split; auto. apply in_or_app; cbn; auto.
  - destruct (IH HW kt) as (j & x & H1 & H2); [apply Hab, in_or_app; auto|]. exists j, x. split; auto. apply in_or_app; auto.
Qed.

Lemma keysorted_nodup (m : list (Z * tuple)) : keysorted m -> NoDup (map fst m).
Proof.
  induction 1 as [|x m HS IH HF]; cbn; constructor; auto. rewrite Forall_forall in HF.
  intros Hin. apply in_map_iff in Hin as (y & Hy & Hin). apply HF in Hin. lia.
Qed.

Lemma fewer_later_mono h h' t : (forall x, In x h -> In x h') -> fewer_later stamp q h' t -> fewer_later stamp q h t.
Proof.
  intros Hh H ts Hn Hts. apply H; auto. intros x Hx. destruct (Hts x Hx) as (H1 & i & e & H2 & H3). eauto 6.
Qed.

(** The messages with stamp [t] received so far are pending. *)
Definition kept (t : Z) (h : list (nat * E)) (s : state E) : Prop :=
  forall j x, In (j, x) h -> stamp x = t -> exists tup, In (t, tup) (tuples s) /\ nth_error tup j = Some (Some x).

Lemma run_kept t i h1 h :
  well_indexed n h1 -> in_order stamp n h1 -> (i < n)%nat ->
  (forall x, In (i, x) h1 -> stamp x < t) ->
  fewer_later stamp q h1 t -> (exists rest, h1 = h ++ rest) -> kept t h (fst (run init h)).
Proof.
  intros HW1 HO1 Hi Hbefore HF. induction h as [|[i' e] h IH] using rev_ind; intros (rest & Eh).
  - intros j x [].
  - assert (Hsub : forall x, In x (h ++ [(i', e)]) -> In x h1) by (intros x Hx; rewrite Eh; apply in_or_app; auto).
    assert (HW : well_indexed n (h ++ [(i', e)])) by (intros j x Hx; apply (HW1 j x); auto).
    assert (HO : in_order stamp n (h ++ [(i', e)])) by (rewrite Eh in HO1; eapply in_order_prefix; eauto).
    specialize (IH ltac:(exists ((i', e) :: rest); now rewrite Eh, <- app_assoc)).
    pose proof HW as HWall. apply well_indexed_app in HW as [HW Hi0]. assert (Hi' : (i' < n)%nat) by (eapply Hi0; cbn; auto).
    rewrite run_snoc. cbn [fst].
    pose proof (run_inv stamp n q h HW) as HI. pose proof (run_keys h HW) as HK.
    pose proof (add_inv stamp n q h _ i' e Hi' HI) as HI'.
    pose proof (fun ss => add_signals stamp n q h _ i' e Hi' HI ss) as Hsig.
    set (s := fst (run init h)) in *.
    pose proof (add_desc stamp n q h s i' e Hi' HI) as HD. destruct HI as (HS & HT & HB).
    inversion HD as [a b t0 s' os Ha Hb Hm Hcase Hs' Hos]. clear HD.
    assert (Hlt : length t0 = n).
    { destruct Hm as [[_ ->]|Hm]; [apply repeat_length|]. apply (HT (stamp e, t0)). rewrite Hm. apply in_or_app; cbn; auto. }
    cbv zeta in Hcase. set (tp := upd i' (Some e) t0) in *.
    assert (Hold_e : forall x, In (i', x) h -> stamp x < stamp e) by (intros; eapply in_order_last; eauto).
    (* what holds of the map before the queue bound is applied *)
    assert (Hmid : forall j x, In (j, x) (h ++ [(i', e)]) -> stamp x = t ->
              exists tup, In (t, tup) (a ++ (stamp e, tp) :: b) /\ nth_error tup j = Some (Some x)).
    { intros j x Hx Hst. apply in_app_or in Hx as [Hx|[[= <- <-]|[]]].
      - destruct (IH j x Hx Hst) as (tup & H1 & H2).
        destruct Hm as [[Hm _]|Hm]; rewrite Hm in H1; apply in_app_or in H1.
        + exists tup. split; auto. apply in_or_app. cbn. tauto.
        + destruct H1 as [H1|[[= H1 H1']|H1]].
          * exists tup. split; auto. apply in_or_app; auto.
          * subst tup. exists tp. split; [apply in_or_app; cbn; right; left; now rewrite H1|].
            unfold tp. rewrite nth_error_upd. destruct (Nat.eqb_spec i' j) as [<-|]; auto. apply Hold_e in Hx. lia.
          * exists tup. split; auto. apply in_or_app; cbn; auto.
      - exists tp. rewrite Hst. split; [apply in_or_app; cbn; auto|]. unfold tp. rewrite nth_error_upd, Nat.eqb_refl.
        destruct (Nat.ltb_spec i' (length t0)); auto; lia. }
    intros j x Hx Hst.
    destruct Hcase as [(ss & Hf & Hs & Ho)|[(Hf & Hq & Hs & Ho)|(Hf & Hq & Hl & Hs & Ho)]].
    + (* a set is output: an older one *)
      assert (matching_set stamp n (h ++ [(i', e)]) (stamp e) ss) as HM.
      { apply (Hsig ss). rewrite Ho, signals_signal. cbn; auto. }
      destruct (matching_set_slot stamp n _ _ ss i Hi HM) as (y & Hy & Hin & Hsy).
      apply Hsub, Hbefore in Hin. rewrite Hs. cbn [tuples].
      destruct (Hmid j x Hx Hst) as (tup & H1 & H2). apply in_app_or in H1 as [H1|[[= H1 _]|H1]]; [|lia|eauto].
      apply Ha in H1. cbn in H1. lia.
    + rewrite Hs. cbn [tuples]. auto.
    + rewrite Hs. cbn [tuples]. destruct (Hmid j x Hx Hst) as (tup & H1 & H2). exists tup. split; auto.
      assert (HSm : keysorted (a ++ (stamp e, tp) :: b)).
      { apply keysorted_mid; auto. destruct Hm as [[Hm _]|Hm]; rewrite Hm in HS; auto. now apply keysorted_unmid in HS. }
      assert (HKm : forall kt, In kt (a ++ (stamp e, tp) :: b) -> exists k y, In (k, y) h1 /\ stamp y = fst kt).
      { intros kt Hkt. assert (In kt (tuples s) -> exists k y, In (k, y) h1 /\ stamp y = fst kt) as HKs.
        { intros Hk. destruct (HK kt Hk) as (k & y & H3 & H4). exists k, y. split; auto. apply Hsub, in_or_app; auto. }
        apply in_app_or in Hkt as [Hkt|[<-|Hkt]].
        - apply HKs. destruct Hm as [[Hm _]|Hm]; rewrite Hm; apply in_or_app; auto.
        - exists i', e. split; auto. apply Hsub, in_or_app; cbn; auto.
        - apply HKs. destruct Hm as [[Hm _]|Hm]; rewrite Hm; apply in_or_app; cbn; auto. }
      destruct (a ++ (stamp e, tp) :: b) as [|[k0 t1] m]; [destruct H1|]. cbn [tl].
      destruct H1 as [[= H1 _]|H1]; auto. exfalso.
      inversion HSm as [|? ? HSm' HFm]; subst. rewrite Forall_forall in HFm. cbn in Hl, HFm.
      specialize (HF (map fst m) (keysorted_nodup m HSm')). rewrite map_length in HF.
      assert (length m < q)%nat; [|lia]. apply HF. intros y Hy. apply in_map_iff in Hy as (kt & <- & Hkt).
      split; [now apply HFm|]. destruct (HKm kt) as (k & z & H3 & H4); cbn; eauto.
Qed.

Lemma completing_output h1 i e ss :
  well_indexed n (h1 ++ [(i, e)]) -> in_order stamp n (h1 ++ [(i, e)]) ->
  matching_set stamp n (h1 ++ [(i, e)]) (stamp e) ss -> fewer_later stamp q h1 (stamp e) ->
  signals (snd (add (fst (run init h1)) (i, e))) = [ss].
Proof.
  intros HW HO [HL HMs] HF. pose proof HW as HWall. apply well_indexed_app in HW as [HW Hi0].
  assert (Hi : (i < n)%nat) by (eapply Hi0; cbn; auto).
  assert (Hbefore : forall x, In (i, x) h1 -> stamp x < stamp e) by (intros; eapply in_order_last; eauto).
  pose proof (run_kept (stamp e) i h1 h1 HW (in_order_prefix _ _ _ _ HO) Hi Hbefore HF) as HK.
  specialize (HK ltac:(exists []; now rewrite app_nil_r)).
  pose proof (run_inv stamp n q h1 HW) as HI. set (s := fst (run init h1)) in *.
  pose proof (add_desc stamp n q h1 s i e Hi HI) as HD. destruct HI as (HS & HT & HB).
  inversion HD as [a b t0 s' os Ha Hb Hm Hcase Hs' Hos]. clear HD.
  assert (Hlt : length t0 = n).
  { destruct Hm as [[_ ->]|Hm]; [apply repeat_length|]. apply (HT (stamp e, t0)). rewrite Hm. apply in_or_app; cbn; auto. }
  cbv zeta in Hcase. set (t := upd i (Some e) t0) in *.
  assert (Ht : t = map Some ss).
  { apply (list_eq_nth None). { unfold t. rewrite upd_length, map_length. lia. }
    intros j Hj. unfold t in Hj. rewrite upd_length in Hj.
    destruct (nth_error ss j) as [ej|] eqn:Hej. 2:{ apply nth_error_None in Hej. lia. }
    assert (Hr : nth j (map Some ss) None = Some ej).
    { apply nth_error_nth. rewrite nth_error_map, Hej. reflexivity. }
    rewrite Hr. apply nth_error_nth. unfold t. rewrite nth_error_upd.
    destruct (HMs j ej Hej) as [Hin Hst].
    destruct (Nat.eqb_spec i j) as [<-|Hne].
    - destruct (Nat.ltb_spec i (length t0)); [|lia]. do 2 f_equal.
      eapply (stream_unique stamp n (h1 ++ [(i, e)])); eauto. apply in_or_app; cbn; auto.
    - apply in_app_or in Hin as [Hin|[[= ]|[]]]; [|congruence].
      destruct (HK j ej Hin Hst) as (t1 & H1 & H2).
      destruct Hm as [[Hm _]|Hm]; rewrite Hm in H1.
      + apply in_app_or in H1 as [H1|H1]; [apply Ha in H1|apply Hb in H1]; cbn in H1; lia.
      + apply in_app_or in H1 as [H1|[[= <-]|H1]]; auto; [apply Ha in H1|apply Hb in H1]; cbn in H1; lia. }
  destruct Hcase as [(ss' & Hf & Hs & Ho)|[(Hf & _)|(Hf & _)]].
  - rewrite Ho, signals_signal, signals_drops. apply full_some in Hf. rewrite Ht in Hf.
    f_equal. clear -Hf. revert ss' Hf; induction ss; intros [|x ss'] Hf; cbn in *; try congruence.
    injection Hf as -> Hf. f_equal. symmetry. rewrite (IHss ss'); auto.
  - rewrite Ht in Hf. assert (full (map Some ss) = Some ss) by now apply full_some. congruence.
  - rewrite Ht in Hf. assert (full (map Some ss) = Some ss) by now apply full_some. congruence.
Qed.

Lemma signals_iff_bounded h ss :
  (0 < n)%nat -> well_indexed n h -> in_order stamp n h -> queue_suffices stamp n q h ->
  (In ss (signals (snd (run init h))) <-> exists t, matching_set stamp n h t ss).
Proof.
  intros Hn HW HO HQ. split; [now apply run_signals|]. revert HW HO HQ.
  induction h as [|[i e] h IH] using rev_ind; intros HW HO HQ [t HM].
  - destruct (matching_set_slot stamp n [] t ss 0 Hn HM) as (x & _ & [] & _).
  - rewrite run_snoc; cbn [snd]. rewrite signals_app. apply in_or_app.
    assert (Hi : (i < n)%nat). { eapply HW, in_or_app; cbn; eauto. }
    destruct (matching_set_slot stamp n _ t ss i Hi HM) as (x & Hx & Hin & Hst).
    apply in_app_or in Hin as [Hin|[[= <-]|[]]].
    + left. apply well_indexed_app in HW as [HW _]. apply IH; eauto using in_order_prefix.
      * intros h1 i1 e1 h2 ss1 Eh. apply (HQ h1 i1 e1 (h2 ++ [(i, e)])). now rewrite Eh, <- app_assoc.
      * exists t. destruct HM as [HL HM]. split; auto. intros j y Hy.
        destruct (HM j y Hy) as [Hj1 Hj2]. split; auto.
        apply in_app_or in Hj1 as [Hj1|[[= <- <-]|[]]]; auto. congruence.
    + right. subst t. rewrite (completing_output h i e ss HW HO HM); cbn; auto. eapply HQ; eauto.
Qed.
End Proofs.
