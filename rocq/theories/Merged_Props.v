(** Property C111: behind an InputAligner, or wherever messages arrive in the order of their stamps, the synchronizers
    need queues of one or two messages only. *)
From Coq Require Import List Arith ZArith Lia Bool Sorted Permutation.
From Verif Require Import Base RclTime Trace Merged_Spec Merged_Proofs.
From Verif Require Exact_Model Exact_Spec ExactBound_Spec ExactBound_Props.
From Verif Require Eps_Model Eps_Spec EpsOrder_Spec Eps_Props.
From Verif Require Approx_Model Approx_Spec Approx_Opt Approx_Props ApproxGroups_Spec ApproxGroups_Proofs ApproxGroups_Props.
From Verif Require Aligner_Model Aligner_Spec Aligner_Props AlignMerge_Spec AlignMerge_Proofs AlignMerge_Props.
Import ListNotations.
Local Open Scope Z_scope.

(** ** ExactTime *)
Section Exact.
Import Exact_Model Exact_Spec ExactBound_Spec ExactBound_Props.
Context {E : Type} (stamp : E -> Z).

(** C111: a queue of one stamp suffices if the messages arrive in the order of their stamps. *)
Theorem C111_exact_sorted_queue n q h :
  (0 < q)%nat -> arrives_in_order stamp h -> queue_suffices stamp n q h.
Proof.
  intros Hq HO h1 i e h2 ss -> _ ts _ Hts. destruct ts as [|t ts]; [cbn; lia|]. exfalso.
  destruct (Hts t (or_introl eq_refl)) as (Hlt & j & x & Hin & <-).
  apply StronglySorted_app in HO as (_ & _ & HO). specialize (HO (j, x) (i, e) Hin (or_introl eq_refl)). cbn in HO. lia.
Qed.

(** C111: then exactly the matching sets are output. *)
Theorem C111_exact_sorted_complete n q h ss :
  (0 < n)%nat -> (0 < q)%nat -> well_indexed n h -> in_order stamp n h -> arrives_in_order stamp h ->
  (In ss (signals (snd (run stamp n q init h))) <-> exists t, matching_set stamp n h t ss).
Proof. intros Hn Hq HW HI HO. apply C105_exact_bounded_complete; auto. now apply C111_exact_sorted_queue. Qed.
End Exact.

(** ** ApproximateEpsilonTime *)
Section Eps.
Import Eps_Model Eps_Spec EpsOrder_Spec Eps_Props.
Context {E : Type} (stamp : E -> Z).
Hypothesis int64 : forall e, stamp e <= int64_max.

(** C111: with queues of one message or more the sets output are exactly the groups with a message of every input,
    each once, although messages of groups that remain incomplete are dropped. *)
Theorem C111_eps_sorted_groups n q eps h s outs :
  (0 < n)%nat -> (0 < q)%nat -> 0 <= eps -> well_indexed n h -> arrives_in_order stamp h -> one_per_group stamp eps h ->
  run stamp n q eps (init n) h = Ok (s, outs) ->
  NoDup outs /\ forall X, In X outs <-> group stamp n eps h X.
Proof.
  intros Hn Hq He HW HO HG Hr.
  destruct (run_P stamp n q eps int64 He Hq h Hn HW) as (s' & o' & Hr' & HP). rewrite Hr in Hr'. injection Hr' as <- <-.
  destruct (HP HO HG) as (_ & _ & Hall). destruct HG as (_ & HND & _).
  assert (Hsound : forall X, In X outs -> group stamp n eps h X).
  { intros X HX. destruct (C22_eps_sets_fit stamp int64 n q eps h s outs X) as (HL & HF); auto.
    split; [auto|split]; auto. intros i e Hi. eapply (C23_eps_set_slots stamp int64 n q eps h s outs); eauto. }
  split; [|split; auto].
  pose proof (C23_eps_subsequence stamp int64 n q eps h s outs 0 Hn He HW Hr) as HS.
  assert (NoDup (column 0 outs)) as HN.
  { eapply subseq_nodup; [|apply (HND 0%nat)]. eapply subseq_trans; [|exact HS].
    rewrite <- (app_nil_r (column 0 outs)) at 1. apply subseq_app; [apply subseq_refl|constructor]. }
  assert (forall X, In X outs -> length X = n) as HLen by (intros X HX; apply (Hsound X HX)).
  clear -Hn HN HLen. induction outs as [|X o IH]; constructor.
  + intros Hin. cbn in HN. specialize (HLen X (or_introl eq_refl)). destruct X as [|x X]; [cbn in HLen; lia|].
    cbn in HN. inversion HN; subst. apply H1. unfold column. apply in_flat_map. exists (x :: X). cbn; auto.
  + apply IH; [|intros; apply HLen; cbn; auto]. cbn in HN. destruct X as [|x X]; cbn in HN; auto. now inversion HN.
Qed.
End Eps.

(** ** ApproximateTime *)
Section Approx.
Import Approx_Model Approx_Spec Approx_Opt Approx_Props ApproxGroups_Spec ApproxGroups_Proofs ApproxGroups_Props.
Import ExactBound_Spec.
Context {E : Type} (stamp : E -> Z) (group : E -> nat).

Lemma incl_stream i (h1 h2 : list (nat * E)) e : In e (stream i h1) -> In e (stream i (h1 ++ h2)).
Proof. rewrite stream_app. intros. apply in_or_app; auto. Qed.

Lemma grouped_app n h1 h2 w : grouped stamp group n (fun i => stream i (h1 ++ h2)) w -> grouped stamp group n (fun i => stream i h1) w.
Proof.
  intros [H1 H2 H3]. constructor.
  - intros i j a b Hi Hj Ha Hb. apply (H1 i j); auto using incl_stream.
  - intros i j a b Hi Hj Ha Hb. apply (H2 i j); auto using incl_stream.
  - intros i Hi. specialize (H3 i Hi). rewrite stream_app, map_app in H3. revert H3. generalize (map group (stream i h1)) as l.
    generalize (map group (stream i h2)) as r. clear. intros r l. induction l as [|a l IH]; intros H; [constructor|].
    cbn in H. inversion H; subst. constructor; auto. intros Ha. apply H2. apply in_or_app; auto.
Qed.
Lemma none_missing_app n h1 h2 : none_missing group n (fun i => stream i (h1 ++ h2)) -> none_missing group n (fun i => stream i h1).
Proof.
  intros (G & HG). exists G. intros i Hi. destruct (HG i Hi) as (r & ->). rewrite stream_app, map_app, <- app_assoc. eexists; reflexivity.
Qed.
Lemma respects_app n b h1 h2 : respects stamp n b (fun i => stream i (h1 ++ h2)) -> respects stamp n b (fun i => stream i h1).
Proof.
  intros H i Hi. destruct (H i Hi) as [H1 H2]. split; auto. intros k x y Hx Hy. apply (H2 k); rewrite stream_app, nth_error_app1; auto; apply nth_error_Some; congruence.
Qed.
Lemma ahead_app n k (h1 h2 : list (nat * E)) : ahead_at_most n k (h1 ++ h2) -> ahead_at_most n k h1.
Proof. intros H a b i j ->. apply (H a (b ++ h2)). now rewrite app_assoc. Qed.

(** If what is output without overflow are the groups, an input that is at most [k] messages ahead never overflows
    a queue of more than [k] messages. *)
Lemma lag_no_overflow c k h w :
  (0 < n c)%nat -> (0 < k)%nat -> (k < queue_size c)%nat -> well_indexed (n c) h ->
  respects stamp (n c) (bound c) (fun i => stream i h) ->
  grouped stamp group (n c) (fun i => stream i h) w -> none_missing group (n c) (fun i => stream i h) ->
  ahead_at_most (n c) k h ->
  (forall h1 h2 s outs, h = h1 ++ h2 -> no_overflow stamp c h1 -> run stamp c (init c) h1 = Ok (s, outs) ->
     the_groups group (n c) (fun i => stream i h1) outs) ->
  no_overflow stamp c h.
Proof.
  intros Hn Hk Hq. induction h as [|[i e] h IH] using rev_ind; intros HW HR HG HN HA HT.
  { intros h1 i e h2 Eh. destruct h1; discriminate. }
  assert (IH' : no_overflow stamp c h).
  { apply IH; eauto using respects_app, grouped_app, none_missing_app, ahead_app.
    - intros j x Hx. apply (HW j x). apply in_or_app; auto.
    - intros h1 h2 s outs -> Hno. apply (HT h1 (h2 ++ [(i, e)])); auto. now rewrite app_assoc. }
  apply C33_approx_no_overflow_if_small_backlog; auto; [lia|].
  intros h1 i' e' h2 s o Eh Hr.
  assert (Hno : no_overflow stamp c h1).
  { destruct h2 as [|x h2 _] using rev_ind.
    - apply app_inj_tail in Eh as [<- _]. exact IH'.
    - rewrite app_comm_cons, app_assoc in Eh. apply app_inj_tail in Eh as [-> _].
      intros a j y b Eab. apply (IH' a j y (b ++ (i', e') :: h2)). rewrite Eab. now rewrite <- app_assoc. }
  destruct (HT h1 ((i', e') :: h2) s o Eh Hno Hr) as (gs & HF & HS & Hall).
  assert (Hi : (i' < n c)%nat) by (apply (HW i' e'); rewrite Eh; apply in_or_app; cbn; auto).
  rewrite Eh in *. set (L := length (stream i' h1)).
  assert (HlenSelf : length (stream i' (h1 ++ [(i', e')])) = S L).
  { rewrite stream_app, stream_cons, Nat.eqb_refl, app_length. cbn. unfold L. lia. }
  assert (Hlen : forall j, (j < n c)%nat -> j <> i' -> (S L <= length (stream j h1) + k)%nat).
  { intros j Hj Hji. pose proof (HA (h1 ++ [(i', e')]) h2 i' j) as H. rewrite HlenSelf in H.
    rewrite stream_app, stream_cons in H. destruct (Nat.eqb_spec i' j); [congruence|]. cbn in H. rewrite app_nil_r in H.
    apply H; auto. now rewrite <- app_assoc. }
  assert (HLF : length gs = length o) by (clear -HF; induction HF; cbn; auto).
  rewrite HlenSelf, <- HLF.
  destruct (le_lt_dec L k) as [HLk|HLk]; [lia|].
  (* the first L - k groups are complete and passed *)
  assert (Hlen' : forall j, (j < n c)%nat -> (L - k <= length (stream j h1) - 1 /\ 0 < length (stream j h1))%nat).
  { intros j Hj. destruct (Nat.eq_dec j i') as [->|Hji]; [|specialize (Hlen j Hj Hji); lia]. fold L. lia. }
  destruct (grouped_app _ _ _ _ HG) as [G1 G2 G3]. pose proof (none_missing_app _ _ _ HN) as (G & HGp).
  pose proof (respects_app _ _ _ _ HR) as HR1. pose proof (grouped_app _ _ _ _ HG) as HG1.
  assert (Hincl : incl (firstn (L - k) (map group (stream i' h1))) gs).
  { intros g Hg. apply In_nth_error in Hg as (m & Hm).
    assert (Hm' : (m < L - k)%nat).
    { assert (m < length (firstn (L - k) (map group (stream i' h1))))%nat by (apply nth_error_Some; congruence). rewrite firstn_length in H. lia. }
    assert (nth_error (map group (stream i' h1)) m = Some g) as Hm2.
    { rewrite <- (firstn_skipn (L - k) (map group (stream i' h1))). rewrite nth_error_app1; auto. apply nth_error_Some. congruence. }
    assert (HGm : nth_error G m = Some g).
    { destruct (HGp i' Hi) as (r & ->). rewrite nth_error_app1; auto. apply nth_error_Some. congruence. }
    assert (Hat : forall j m' x, (j < n c)%nat -> nth_error (stream j h1) m' = Some x -> nth_error G m' = Some (group x)).
    { intros j m' x Hj Hx. destruct (HGp j Hj) as (r & ->). rewrite nth_error_app1; [now rewrite nth_error_map, Hx|].
      rewrite map_length. apply nth_error_Some. congruence. }
    apply Hall.
    - intros j Hj. destruct (nth_error (stream j h1) m) as [x|] eqn:Ex.
      + exists x. split; [eapply nth_error_In; eauto|]. specialize (Hat j m x Hj Ex). congruence.
      + apply nth_error_None in Ex. specialize (Hlen' j Hj); lia.
    - intros j Hj. destruct (nth_error (stream j h1) m) as [x|] eqn:Ex; [|apply nth_error_None in Ex; specialize (Hlen' j Hj); lia].
      destruct (nth_error (stream j h1) (S m)) as [y|] eqn:Ey; [|apply nth_error_None in Ey; specialize (Hlen' j Hj); lia].
      exists y. split; [eapply nth_error_In; eauto|]. replace g with (group x) by (specialize (Hat j m x Hj Ex); congruence).
      apply (strict stamp group c _ w HR1 Hn HG1 j m (S m)); auto. }
  apply NoDup_incl_length in Hincl.
  - rewrite firstn_length, map_length in Hincl. fold L in Hincl. lia.
  - specialize (G3 i' Hi). revert G3. generalize (map group (stream i' h1)) as l. generalize (L - k)%nat as m. clear.
    intros m l H. rewrite <- (firstn_skipn m l) in H. revert H. generalize (skipn m l) as r. generalize (firstn m l) as l'. clear.
    intros l r. induction l as [|a l IH]; intros H; [constructor|]. cbn in H. inversion H; subst. constructor; auto.
    intros Ha. apply H2. apply in_or_app; auto.
Qed.

(** C111: with none of the inputs more than [k] messages ahead of another and queues of more than [k] messages, nothing
    is dropped and the sets output are the groups; with a maximum interval ... *)
Theorem C111_approx_lag_outputs_groups c tol num den k h s outs :
  (0 < n c)%nat -> (0 < k)%nat -> (k < queue_size c)%nat -> well_indexed (n c) h ->
  scaling tol num den (scale c) -> respects stamp (n c) (bound c) (fun i => stream i h) ->
  grouped stamp group (n c) (fun i => stream i h) (max_interval c) ->
  none_missing group (n c) (fun i => stream i h) -> ahead_at_most (n c) k h ->
  run stamp c (init c) h = Ok (s, outs) ->
  no_overflow stamp c h /\ the_groups group (n c) (fun i => stream i h) outs.
Proof.
  intros Hn Hk Hq HW SC HR HG HN HA Hr.
  assert (Hno : no_overflow stamp c h).
  { apply (lag_no_overflow c k h (max_interval c)); auto. intros h1 h2 s1 o1 -> Hno Hr1.
    apply (C110_approx_outputs_groups stamp group c tol num den h1 s1 o1); auto; [lia| | |].
    - intros j x Hx. apply (HW j x). apply in_or_app; auto.
    - eapply respects_app; eauto.
    - eapply grouped_app; eauto. }
  split; auto. apply (C110_approx_outputs_groups stamp group c tol num den h s outs); auto. lia.
Qed.

(** ... or without one. *)
Theorem C111_approx_lag_outputs_groups_unlimited c tol num den k h s outs w :
  (0 < n c)%nat -> (0 < k)%nat -> (k < queue_size c)%nat -> well_indexed (n c) h ->
  scaling tol num den (scale c) -> respects stamp (n c) (bound c) (fun i => stream i h) ->
  grouped stamp group (n c) (fun i => stream i h) w ->
  none_missing group (n c) (fun i => stream i h) -> ahead_at_most (n c) k h ->
  (forall i j a b, (i < n c)%nat -> (j < n c)%nat -> In a (stream i h) -> In b (stream j h) ->
     stamp a - stamp b <= max_interval c) ->
  run stamp c (init c) h = Ok (s, outs) ->
  no_overflow stamp c h /\ the_groups group (n c) (fun i => stream i h) outs.
Proof.
  intros Hn Hk Hq HW SC HR HG HN HA HM Hr.
  assert (Hno : no_overflow stamp c h).
  { apply (lag_no_overflow c k h w); auto. intros h1 h2 s1 o1 -> Hno Hr1.
    apply (C110_approx_outputs_groups_unlimited stamp group c tol num den h1 s1 o1 w); auto; [lia| | | | |].
    - intros j x Hx. apply (HW j x). apply in_or_app; auto.
    - eapply respects_app; eauto.
    - eapply grouped_app; eauto.
    - eapply none_missing_app; eauto.
    - intros i j a b Hi Hj Ha Hb. apply (HM i j); auto using incl_stream. }
  split; auto. apply (C110_approx_outputs_groups_unlimited stamp group c tol num den h s outs w); auto. lia.
Qed.

(** C111: messages that arrive in order, of inputs none of which stops before the others: no input is ever more than one
    message ahead, so queues of two messages suffice. *)
Theorem C111_sorted_ahead_at_most_one n h w :
  well_indexed n h -> grouped stamp group n (fun i => stream i h) w -> none_missing group n (fun i => stream i h) ->
  nondecreasing (fun x => stamp (snd x)) h ->
  (forall i j, (i < n)%nat -> (j < n)%nat -> (length (stream i h) <= length (stream j h) + 1)%nat) ->
  ahead_at_most n 1 h.
Proof.
  intros HW HG (G & HGp) HO HL h1 h2 i j -> Hi Hj.
  destruct (le_lt_dec (length (stream i h1)) (length (stream j h1) + 1)) as [|Hlt]; auto. exfalso.
  (* the next message of input j is in h2, although its group is earlier than the last one of input i *)
  set (m := length (stream j h1)) in *.
  destruct (nth_error (stream i h1) m) as [a|] eqn:Ea; [|apply nth_error_None in Ea; lia].
  destruct (nth_error (stream i h1) (S m)) as [b|] eqn:Eb; [|apply nth_error_None in Eb; lia].
  assert (Eai : nth_error (stream i (h1 ++ h2)) m = Some a) by (rewrite stream_app, nth_error_app1; auto; lia).
  assert (Ebi : nth_error (stream i (h1 ++ h2)) (S m) = Some b) by (rewrite stream_app, nth_error_app1; auto; lia).
  assert (exists x, nth_error (stream j h2) 0 = Some x) as (x & Ex).
  { specialize (HL i j Hi Hj). rewrite !stream_app, !app_length in HL. fold m in HL.
    destruct (nth_error (stream j h2) 0) eqn:E0; eauto. apply nth_error_None in E0. lia. }
  assert (Exj : nth_error (stream j (h1 ++ h2)) m = Some x).
  { rewrite stream_app, nth_error_app2 by (fold m; lia). fold m. now rewrite Nat.sub_diag. }
  assert (Hat : forall l k y, (l < n)%nat -> nth_error (stream l (h1 ++ h2)) k = Some y -> nth_error G k = Some (group y)).
  { intros l k y Hl Hy. destruct (HGp l Hl) as (r & ->). rewrite nth_error_app1; [now rewrite nth_error_map, Hy|].
    rewrite map_length. apply nth_error_Some. congruence. }
  assert (group x = group a) as Hxa by (pose proof (Hat j m x Hj Exj); pose proof (Hat i m a Hi Eai); congruence).
  assert (Hsb : stamp b <= stamp x).
  { apply StronglySorted_app in HO as (_ & _ & HO). apply (HO (i, b) (j, x)).
    - apply stream_in. eapply nth_error_In; eauto.
    - apply stream_in. eapply nth_error_In; eauto. }
  pose proof (nth_error_In _ _ Exj) as Ix. pose proof (nth_error_In _ _ Ebi) as Ib. pose proof (nth_error_In _ _ Eai) as Ia.
  destruct (lt_eq_lt_dec (group a) (group b)) as [[H|H]|H].
  - pose proof (gr_apart _ _ _ _ _ HG j i x b Hj Hi Ix Ib ltac:(lia)). pose proof (gr_same _ _ _ _ _ HG i i b b Hi Hi Ib Ib eq_refl). lia.
  - pose proof (gr_once _ _ _ _ _ HG i Hi) as HN. rewrite NoDup_nth_error in HN.
    assert (Hm : (m < length (map group (stream i (h1 ++ h2))))%nat) by (rewrite map_length; apply nth_error_Some; congruence).
    specialize (HN m (S m) Hm). rewrite !nth_error_map, Eai, Ebi in HN. cbn in HN. rewrite H in HN. specialize (HN eq_refl). lia.
  - (* group b before group a, but a arrived first *)
    pose proof (gr_apart _ _ _ _ _ HG i i b a Hi Hi Ib Ia H). pose proof (gr_same _ _ _ _ _ HG i i b b Hi Hi Ib Ib eq_refl).
    assert (Hs : nondecreasing stamp (stream i h1)).
    { apply StronglySorted_app in HO as (HO & _ & _). clear -HO. induction HO as [|[k y] l HO IH HF]; [constructor|].
      rewrite stream_cons. destruct (k =? i)%nat; auto. constructor; auto. rewrite Forall_forall in *. intros z Hz. apply stream_in in Hz. apply (HF (i, z) Hz). }
    assert (stamp a <= stamp b); [|lia].
    rewrite <- (firstn_skipn (S m) (stream i h1)) in Hs. apply StronglySorted_app in Hs as (_ & _ & Hs). apply Hs.
    + apply (nth_error_In _ m). rewrite ExactBound_Props.nth_error_firstn_lt; auto.
    + apply (nth_error_In _ 0). rewrite ExactBound_Props.nth_error_skipn_add. now rewrite Nat.add_0_r.
Qed.
End Approx.

(** ** Behind an InputAligner *)
Section Aligned.
Import Aligner_Model Aligner_Spec Aligner_Props AlignMerge_Spec AlignMerge_Props.
Context {E : Type} (stamp : E -> Z).
Hypothesis int64 : forall e, stamp e < int64_max.

(** C111: timely inputs leave an InputAligner in the order of their stamps. *)
Theorem C111_aligner_arrives_in_order n timeout per h s outs :
  (0 < n)%nat -> 0 <= timeout -> well_indexed n h -> timely stamp n timeout per h -> run stamp timeout (init n) h = Ok (s, outs) ->
  arrives_in_order stamp outs.
Proof.
  intros Hn Ht HW HT Hr. destruct (C108_aligner_merge_order stamp int64 n timeout per h s outs Hn Ht HW HT Hr) as [HS _].
  clear -HS. induction HS as [|x l HS IH HF]; constructor; [apply IH|]. rewrite Forall_forall in *. intros y Hy. specialize (HF y Hy). unfold before in HF. lia.
Qed.

Lemma outs_indexed n timeout h s outs i e :
  (0 < n)%nat -> 0 <= timeout -> well_indexed n h -> run stamp timeout (init n) h = Ok (s, outs) -> In (i, e) outs -> (i < n)%nat.
Proof.
  intros Hn Ht HW Hr Hin. destruct (le_lt_dec n i) as [Hi|]; auto. exfalso.
  pose proof (outs_out_of_range stamp int64 n timeout h s outs i Hn Ht HW Hr Hi) as H0. apply stream_in in Hin. now rewrite H0 in Hin.
Qed.

Lemma same_members (h m : list (nat * E)) : (forall i, stream i m = stream i h) -> forall i e, In (i, e) m <-> In (i, e) h.
Proof. intros H i e. rewrite <- !stream_in, H. tauto. Qed.

(** C111: ExactTime behind it, with a queue of one: exactly the matching sets of what the aligner received. *)
Theorem C111_aligner_then_exact n timeout per h s outs q ss :
  (0 < n)%nat -> 0 <= timeout -> well_indexed n h -> timely stamp n timeout per h -> run stamp timeout (init n) h = Ok (s, outs) ->
  (forall i, (i < n)%nat -> queued i s = []) -> (0 < q)%nat -> Exact_Spec.in_order stamp n (adds h) ->
  (In ss (Exact_Spec.signals (snd (Exact_Model.run stamp n q Exact_Model.init outs))) <->
   exists t, Exact_Spec.matching_set stamp n (adds h) t ss).
Proof.
  intros Hn Ht HW HT Hr HQ Hq HI. destruct (C108_aligner_merges stamp int64 n timeout per h s outs Hn Ht HW HT Hr HQ) as [_ HM].
  rewrite C111_exact_sorted_complete; auto.
  - split; intros (t & HL & Hall); exists t; (split; [auto|]); intros i e He; destruct (Hall i e He) as [H1 H2]; (split; [|auto]);
      now apply (same_members (adds h) outs HM).
  - intros i e He. now apply (outs_indexed n timeout h s outs i e).
  - intros i Hi. rewrite HM. auto.
  - now apply (C111_aligner_arrives_in_order n timeout per h s).
Qed.

(** C111: ApproximateEpsilonTime behind it, with queues of one: exactly the groups. *)
Theorem C111_aligner_then_eps n timeout per h s outs q eps s' sets :
  (0 < n)%nat -> 0 <= timeout -> well_indexed n h -> timely stamp n timeout per h -> run stamp timeout (init n) h = Ok (s, outs) ->
  (forall i, (i < n)%nat -> queued i s = []) -> (0 < q)%nat -> 0 <= eps -> EpsOrder_Spec.one_per_group stamp eps (adds h) ->
  Eps_Model.run stamp n q eps (Eps_Model.init n) outs = Ok (s', sets) ->
  NoDup sets /\ forall X, In X sets <-> EpsOrder_Spec.group stamp n eps (adds h) X.
Proof.
  intros Hn Ht HW HT Hr HQ Hq He HG Hr'. destruct (C108_aligner_merges stamp int64 n timeout per h s outs Hn Ht HW HT Hr HQ) as [_ HM].
  pose proof (same_members (adds h) outs HM) as HE.
  destruct (C111_eps_sorted_groups stamp ltac:(intros e; specialize (int64 e); lia) n q eps outs s' sets) as (H1 & H2); auto.
  - intros i e Hin. now apply (outs_indexed n timeout h s outs i e).
  - now apply (C111_aligner_arrives_in_order n timeout per h s).
  - destruct HG as (G1 & G2 & G3). split; [|split].
    + intros i j k x y z Hx Hy Hz. apply (G1 i j k); now apply HE.
    + intros i. rewrite HM. auto.
    + intros i x y Hx Hy. apply (G3 i); now apply HE.
  - split; auto. intros X. rewrite H2. split; intros (HL & HF & Hall); (split; [auto|split; [auto|]]); intros i e Hi; apply HE; auto.
Qed.

(** C111: ApproximateTime behind it, with queues of two. *)
Theorem C111_aligner_then_approx group c timeout per h s outs tol num den s' sets :
  (0 < Approx_Model.n c)%nat -> 0 <= timeout -> well_indexed (Approx_Model.n c) h -> timely stamp (Approx_Model.n c) timeout per h ->
  run stamp timeout (init (Approx_Model.n c)) h = Ok (s, outs) ->
  (forall i, (i < Approx_Model.n c)%nat -> queued i s = []) ->
  (1 < Approx_Model.queue_size c)%nat -> Approx_Spec.scaling tol num den (Approx_Model.scale c) ->
  Approx_Spec.respects stamp (Approx_Model.n c) (Approx_Model.bound c) (fun i => stream i (adds h)) ->
  ApproxGroups_Spec.grouped stamp group (Approx_Model.n c) (fun i => stream i (adds h)) (Approx_Model.max_interval c) ->
  ApproxGroups_Spec.none_missing group (Approx_Model.n c) (fun i => stream i (adds h)) ->
  (forall i j, (i < Approx_Model.n c)%nat -> (j < Approx_Model.n c)%nat ->
     (length (stream i (adds h)) <= length (stream j (adds h)) + 1)%nat) ->
  Approx_Model.run stamp c (Approx_Model.init c) outs = Ok (s', sets) ->
  ApproxGroups_Spec.the_groups group (Approx_Model.n c) (fun i => stream i (adds h)) sets.
Proof.
  intros Hn Ht HW HT Hr HQ Hq SC HR HG HN HL Hr'.
  destruct (C108_aligner_merges stamp int64 _ timeout per h s outs Hn Ht HW HT Hr HQ) as [_ HM].
  assert (HR' : Approx_Spec.respects stamp (Approx_Model.n c) (Approx_Model.bound c) (fun i => stream i outs)).
  { intros i Hi. rewrite HM. auto. }
  assert (HG' : ApproxGroups_Spec.grouped stamp group (Approx_Model.n c) (fun i => stream i outs) (Approx_Model.max_interval c)).
  { destruct HG as [G1 G2 G3]. constructor.
    - intros i j a b Hi Hj. rewrite !HM. now apply G1.
    - intros i j a b Hi Hj. rewrite !HM. now apply G2.
    - intros i Hi. rewrite HM. auto. }
  assert (HN' : ApproxGroups_Spec.none_missing group (Approx_Model.n c) (fun i => stream i outs)).
  { destruct HN as (G & HN). exists G. intros i Hi. rewrite HM. auto. }
  assert (HW' : Approx_Spec.well_indexed (Approx_Model.n c) outs).
  { intros i e Hin. now apply (outs_indexed _ timeout h s outs i e). }
  assert (HA : ExactBound_Spec.ahead_at_most (Approx_Model.n c) 1 outs).
  { apply (C111_sorted_ahead_at_most_one stamp group (Approx_Model.n c) outs (Approx_Model.max_interval c)); auto.
    - now apply (C111_aligner_arrives_in_order (Approx_Model.n c) timeout per h s).
    - intros i j Hi Hj. rewrite !HM. auto. }
  destruct (C111_approx_lag_outputs_groups stamp group c tol num den 1 outs s' sets) as (_ & gs & H1 & H2 & H3); auto.
  exists gs. split; [|split; auto].
  - clear -H1 HM. induction H1 as [|g X gs sets [HL HX] H1 IH]; constructor; auto. split; auto. intros i Hi.
    destruct (HX i Hi) as (e & He & Hin & Hg). exists e. rewrite <- HM. auto.
  - intros g Hc Hp. apply H3.
    + intros i Hi. destruct (Hc i Hi) as (e & He). exists e. now rewrite HM.
    + intros i Hi. destruct (Hp i Hi) as (e & He). exists e. now rewrite HM.
Qed.
End Aligned.

(** ** Non-vacuity *)
Section Examples.
Import Aligner_Model Aligner_Spec Aligner_Props AlignMerge_Spec AlignMerge_Props.

(** Two inputs with period 10 and groups around the multiples of ten; everything is forwarded in the end. *)
Definition gh : list (op Z) :=
  [SetPeriod 0 10; SetPeriod 1 10; Add 1 12; Add 1 22; Add 0 10; Dispatch; Add 0 20; Add 0 30; Dispatch; Add 1 32; Dispatch].
Example timely_gh : timely ms 2 25 per10 gh.
Proof.
  constructor.
  - intros i; unfold per10; destruct (i <? 2)%nat; lia.
  - intros h1 h2 i H Hne Hi; apply two in Hi; unfold gh in H.
    by_prefix h1 H ltac:(first [now cbn in Hne | now destruct Hi as [-> | ->]]).
  - intros i e H; cbn in H; repeat (destruct H as [H|H]; [injection H as <- <-; cbn; lia|]); destruct H.
  - intros i l1 x y l2 H; destruct i as [|[|i]]; cbn in H; by_prefix l1 H ltac:(injection H as <- <- _; cbn; lia).
  - intros h1 h2 i y H Hi Hy; apply two in Hi; unfold gh in H.
    by_prefix h1 H ltac:(cbn in Hy;
      repeat (destruct Hy as [Hy|Hy]; [subst y; destruct Hi as [-> | ->];
        first [solve [exists 10; cbn; split; [auto 10|lia]] | solve [exists 12; cbn; split; [auto 10|lia]] | solve [exists 22; cbn; split; [auto 10|lia]]
              | solve [exists 30; cbn; split; [auto 10|lia]]]|]); destruct Hy).
Qed.
Example C111_aligner_met :
  well_indexed 2 gh /\
  match run ms 25 (init 2) gh with
  | Ok (s, outs) => outs = [(0%nat, 10); (1%nat, 12); (0%nat, 20); (1%nat, 22); (0%nat, 30); (1%nat, 32)] /\
      queued 0 s = [] /\ queued 1 s = []
  | Err _ => False end.
Proof. split; [split; intros i e H; cbn in H; repeat (destruct H as [H|H]; [inversion H; lia|]); destruct H|]. vm_compute. auto. Qed.

Definition gouts : list (nat * Z) := [(0%nat, 10); (1%nat, 12); (0%nat, 20); (1%nat, 22); (0%nat, 30); (1%nat, 32)].
(** ApproximateEpsilonTime with queues of one finds all groups; with the interleaving of [gh] it would not. *)
Example C111_eps_met :
  EpsOrder_Spec.one_per_group ms 5 gouts /\
  match Eps_Model.run ms 2 1 5 (Eps_Model.init 2) gouts with Ok (_, o) => o = [[10; 12]; [20; 22]; [30; 32]] | Err _ => False end /\
  match Eps_Model.run ms 2 1 5 (Eps_Model.init 2) (adds gh) with Ok (_, o) => o = [[20; 22]; [30; 32]] | Err _ => False end /\
  match Eps_Model.run ms 2 0 5 (Eps_Model.init 2) gouts with Ok (_, o) => o = [] | Err _ => False end.
Proof.
  split; [|split; [|split]; vm_compute; reflexivity]. split; [|split].
  - intros i j k x y z Hx Hy Hz. unfold Eps_Spec.close, ms. cbn in Hx, Hy, Hz.
    repeat (destruct Hx as [[= <- <-]|Hx]; [repeat (destruct Hy as [[= <- <-]|Hy]; [repeat (destruct Hz as [[= <- <-]|Hz]; [cbn; lia|]); destruct Hz|]); destruct Hy|]). destruct Hx.
  - intros [|[|i]]; cbn; repeat constructor; cbn; intuition lia.
  - intros i x y Hx Hy Hxy. unfold Eps_Spec.close, ms in Hxy. cbn in Hx, Hy.
    repeat (destruct Hx as [[= <- <-]|Hx]; [repeat (destruct Hy as [Hy|Hy]; [try discriminate Hy; injection Hy as Hy; subst y; cbn in Hxy; lia|]); destruct Hy|]). destruct Hx.
Qed.

(** ApproximateTime with queues of two finds all groups that are passed; with inputs two messages ahead two is not
    enough. *)
Definition cfgq (q : nat) : Approx_Model.cfg := Approx_Model.mkCfg 2 q 3 (Approx_Model.scale_by 11 10) (fun _ => 0).
Definition ahead2 : list (nat * Z) := [(0%nat, 10); (0%nat, 20); (0%nat, 30); (1%nat, 12); (1%nat, 22); (1%nat, 32)].
Example C111_approx_met :
  ApproxGroups_Spec.none_missing ApproxGroups_Props.tens 2 (fun i => stream i gouts) /\
  ExactBound_Spec.ahead_at_most 2 1 gouts /\
  match Approx_Model.run (fun z => z) (cfgq 2) (Approx_Model.init (cfgq 2)) gouts with Ok (_, o) => o = [[10; 12]; [20; 22]] | Err _ => False end /\
  match Approx_Model.run (fun z => z) (cfgq 2) (Approx_Model.init (cfgq 2)) ahead2 with Ok (_, o) => o = [[20; 22]] | Err _ => False end.
Proof.
  split; [|split; [|split; vm_compute; reflexivity]].
  - exists [1; 2; 3]%nat. intros [|[|i]] Hi; [exists []|exists []|lia]; reflexivity.
  - intros h1 h2 i j H Hi Hj. unfold gouts in H.
    assert (HK : (length h1 <= 6)%nat) by (change 6%nat with (length gouts); unfold gouts; rewrite H, app_length; lia).
    apply two in Hi, Hj.
    repeat (destruct h1 as [|? h1]; [destruct Hi as [-> | ->], Hj as [-> | ->]; cbn; lia|cbn in H; try discriminate H; injection H as <- H]).
Qed.
End Examples.

Print Assumptions C111_exact_sorted_queue.
Print Assumptions C111_exact_sorted_complete.
Print Assumptions C111_eps_sorted_groups.
Print Assumptions C111_approx_lag_outputs_groups.
Print Assumptions C111_approx_lag_outputs_groups_unlimited.
Print Assumptions C111_sorted_ahead_at_most_one.
Print Assumptions C111_aligner_arrives_in_order.
Print Assumptions C111_aligner_then_exact.
Print Assumptions C111_aligner_then_eps.
Print Assumptions C111_aligner_then_approx.
