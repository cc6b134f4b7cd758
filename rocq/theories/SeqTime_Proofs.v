From Coq Require Import List Arith ZArith Lia Bool Sorted Permutation.
From Verif Require Import Base RclTime Trace Seq_Model Seq_Spec Seq_Proofs SeqTime_Spec.
Import ListNotations.
Local Open Scope Z_scope.

Section Proofs.
Context {E : Type} (stamp : E -> time).
Variable q : nat.
Variable d : Z.
Hypothesis Hsys : system_stamps stamp.
Notation t_ := (at_ns stamp).
Notation run := (run stamp q d).

Lemma filter_perm (p : E -> bool) a b : Permutation a b -> Permutation (filter p a) (filter p b).
Proof.
  induction 1 as [|x a b _ IH|x y a|a b c _ IH1 _ IH2]; cbn; auto.
  - destruct (p x); auto.
  - destruct (p x), (p y); auto. constructor.
  - etransitivity; eauto.
Qed.
Lemma filter_all (p : E -> bool) l : (forall x, In x l -> p x = true) -> filter p l = l.
Proof.
  induction l as [|x l IH]; intros H; cbn; auto. rewrite (H x) by (cbn; auto). f_equal. apply IH. intros; apply H; cbn; auto.
Qed.

Lemma in_time_prefix h o : in_time stamp d (h ++ [o]) -> in_time stamp d h.
Proof. intros H h1 e h2 ->. apply (H h1 e (h2 ++ [o])). now rewrite <- app_assoc. Qed.
Lemma suffices_prefix h o : queue_suffices stamp q d (h ++ [o]) -> queue_suffices stamp q d h.
Proof.
  intros [H|[H1 H2]]; [now left|right]. split.
  - intros nows Hn. apply H1, in_or_app. auto.
  - intros h1 h2 ->. apply (H2 h1 (h2 ++ [o])). now rewrite <- app_assoc.
Qed.
Lemma waiting_snoc (h : list (op E)) o : waiting stamp d (h ++ [o]) = wait_step stamp d (waiting stamp d h) o.
Proof. unfold waiting. now rewrite fold_left_app. Qed.

Lemma sorted_join (a b : list E) m :
  nondecreasing t_ a -> nondecreasing t_ b -> (forall x, In x a -> t_ x <= m) -> (forall x, In x b -> m <= t_ x) ->
  nondecreasing t_ (a ++ b).
Proof.
  intros Ha Hb H1 H2. apply StronglySorted_app. split; auto. split; auto.
  intros x y Hx Hy. specialize (H1 x Hx). specialize (H2 y Hy). lia.
Qed.

Lemma run_sorts h : in_time stamp d h -> queue_suffices stamp q d h ->
  exists s outs, run init h = Ok (s, outs) /\
    stably_sorted stamp (added h) (outs ++ messages s) /\
    (forall x, In x outs -> exists nows k, In (Tick nows) h /\ t_ x + d <= nows k) /\
    (q <> 0%nat -> exists X, Permutation (waiting stamp d h) (messages s ++ X)).
Proof.
  induction h as [|o h IH] using rev_ind; intros HT HQ.
  - exists init, []. split; auto. split; [split; [constructor|auto]|]. split; [intros x []|]. exists []. constructor.
  - destruct (IH (in_time_prefix _ _ HT) (suffices_prefix _ _ HQ)) as (s & outs & Hr & [HS HW] & HO & HX).
    destruct (run_rinv stamp q d Hsys h) as (s1 & o1 & Hr1 & HI & HSo & HLo & HLa & HB & _). rewrite Hr in Hr1. injection Hr1 as <- <-.
    rewrite run_snoc, Hr. cbn [bind]. rewrite (added_snoc h o). destruct o as [e|nows]; cbn [step].
    + destruct (add_ok stamp q Hsys s e HI) as (s' & Ha & Hat & HI'). rewrite Ha. cbn [bind].
      exists s', (outs ++ []). rewrite app_nil_r. split; auto.
      destruct (HT h e [] eq_refl) as [He Hn].
      assert (Hlast : ns (last_time s) <= t_ e).
      { destruct HLa as [->|(x & Hx & <-)]; auto. destruct (HO x Hx) as (nows & k & Hin & Hk). specialize (Hn nows k Hin). lia. }
      inversion Hat as [Hlt|ms _ Hq HP Hms|ms m _ Hq Hl HP _ Hms]; subst s'.
      * lia.
      * cbn [messages]. destruct HI' as (HSm & _ & HLm). cbn in HSm, HLm. split; [split|].
        -- apply (sorted_join _ _ (ns (last_time s))); auto.
        -- intros t. rewrite !with_stamp_app, Hms, app_assoc, <- with_stamp_app, HW. reflexivity.
        -- split.
           ++ intros x Hx. destruct (HO x Hx) as (nows & k & Hin & Hk). exists nows, k. split; auto. apply in_or_app; auto.
           ++ intros Hq0. destruct (HX Hq0) as (X & HX'). exists X. rewrite waiting_snoc. cbn [wait_step].
              rewrite <- Permutation_cons_append, HX', <- HP. reflexivity.
      * exfalso. destruct HQ as [HQ|[_ HQ]]; [auto|]. destruct (HX Hq) as (X & HX').
        specialize (HQ (h ++ [Add e]) [] ltac:(now rewrite app_nil_r)). rewrite waiting_snoc in HQ. cbn [wait_step] in HQ.
        rewrite app_length in HQ. cbn in HQ. apply Permutation_length in HX'. rewrite app_length in HX'. lia.
    + destruct HI as (HSm & HC & HLm).
      destruct (dispatch_ok stamp d Hsys nows (messages s) (last_time s) HC) as (rest & o' & last' & H1 & H2 & _ & H4 & H5 & _).
      rewrite H1. cbn [bind]. exists (mkState rest last'), (outs ++ o'). split; auto. cbn [messages].
      rewrite <- app_assoc, <- H2, app_nil_r. split; [split; auto|]. split.
      * intros x Hx. apply in_app_or in Hx as [Hx|Hx].
        -- destruct (HO x Hx) as (nows' & k & Hin & Hk). exists nows', k. split; auto. apply in_or_app; auto.
        -- apply In_nth_error in Hx as (k & Hk). exists nows, k. split; [apply in_or_app; cbn; auto|]. eauto.
      * intros Hq. destruct (HX Hq) as (X & HX').
        assert (HM : monotone nows). { destruct HQ as [HQ|[HQ _]]; [congruence|]. apply HQ, in_or_app; cbn; auto. }
        assert (HRest : filter (fun e => nows 0%nat <? t_ e + d) rest = rest).
        { apply filter_all. intros x Hx. apply Z.ltb_lt. destruct rest as [|y rest]; [destruct Hx|].
          specialize (H5 y rest eq_refl). specialize (HM 0%nat (length o') (Nat.le_0_l _)).
          rewrite H2 in HSm. apply StronglySorted_app in HSm as (_ & HSm & _). inversion HSm as [|? ? _ HF]; subst.
          rewrite Forall_forall in HF. destruct Hx as [<-|Hx]; [lia|]. apply HF in Hx. lia. }
        exists (filter (fun e => nows 0%nat <? t_ e + d) o' ++ filter (fun e => nows 0%nat <? t_ e + d) X).
        rewrite waiting_snoc. cbn [wait_step]. rewrite (filter_perm _ _ _ HX'), H2, !filter_app, HRest.
        rewrite <- app_assoc. rewrite Permutation_app_comm, <- app_assoc. rewrite (Permutation_app_comm _ (filter _ o')).
        rewrite !app_assoc. apply Permutation_app_tail. reflexivity.
Qed.

Lemma with_stamp_head (x : E) l m : with_stamp stamp (t_ x) (x :: l) = m -> exists m', m = x :: m' /\ m' = with_stamp stamp (t_ x) l.
Proof. intros <-. unfold with_stamp. cbn. rewrite Z.eqb_refl. eauto. Qed.

Lemma stably_sorted_unique m : forall l l', stably_sorted stamp m l -> stably_sorted stamp m l' -> l = l'.
Proof.
  intros l l' [HS HW] [HS' HW'].
  assert (HE : forall t, with_stamp stamp t l = with_stamp stamp t l') by (intros; congruence). clear HW HW'.
  revert l' HS' HE. induction HS as [|x l HS IH HF]; intros l' HS' HE.
  - destruct l' as [|y l']; auto. specialize (HE (t_ y)). unfold with_stamp in HE. cbn in HE. rewrite Z.eqb_refl in HE. discriminate.
  - destruct HS' as [|y l' HS' HF'].
    { specialize (HE (t_ x)). unfold with_stamp in HE. cbn in HE. rewrite Z.eqb_refl in HE. discriminate. }
    assert (Hin : forall z a b, (forall t, with_stamp stamp t a = with_stamp stamp t b) -> In z a -> In z b).
    { intros z a b H Hz. assert (In z (with_stamp stamp (t_ z) a)) as Hz' by (apply filter_In; split; auto; apply Z.eqb_refl).
      rewrite H in Hz'. now apply filter_In in Hz'. }
    rewrite Forall_forall in HF, HF'.
    assert (t_ x = t_ y).
    { assert (In x (y :: l')) as Hx by (apply (Hin x (x :: l)); [exact HE|now left]).
      assert (In y (x :: l)) as Hy by (apply (Hin y (y :: l')); [intros t; symmetry; apply HE|now left]).
      destruct Hx as [->|Hx]; auto. destruct Hy as [->|Hy]; auto. apply HF in Hy. apply HF' in Hx. lia. }
    assert (x = y) as <-.
    { specialize (HE (t_ x)). unfold with_stamp in HE. cbn in HE. rewrite <- H, Z.eqb_refl in HE. now injection HE. }
    f_equal. apply IH; auto. intros t. specialize (HE t). unfold with_stamp in *. cbn in HE. destruct (t_ x =? t); auto. now injection HE.
Qed.
End Proofs.
