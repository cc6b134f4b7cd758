(** Properties C108 and C109: an InputAligner whose inputs keep their periods and do not time out merges them,
    whatever the interleaving of additions and dispatches; and what is left waiting after a dispatch lags less than
    the timeout.  Names as in Aligner_Props.v. *)
From Coq Require Import List Arith ZArith Lia Bool Sorted Permutation.
From Verif Require Import Base RclTime Trace Aligner_Model Aligner_Spec Aligner_Proofs Aligner_Props AlignMerge_Spec AlignMerge_Proofs.
Import ListNotations.
Local Open Scope Z_scope.

Section Props.
Context {E : Type} (stamp : E -> Z).
Hypothesis int64 : forall e, stamp e < int64_max.
Notation run := (run stamp).

Lemma the_J n timeout per h s outs :
  (0 < n)%nat -> 0 <= timeout -> well_indexed n h -> timely stamp n timeout per h -> run timeout (init n) h = Ok (s, outs) ->
  J stamp n per h s outs.
Proof.
  intros Hn Ht HW HT Hr. destruct (run_J stamp n timeout per int64 Hn Ht h HW HT) as (s' & o' & Hr' & HJ).
  rewrite Hr in Hr'. now injection Hr' as <- <-.
Qed.

(** C108: nothing is dropped or reordered within an input. *)
Theorem C108_aligner_keeps_all n timeout per h s outs i :
  (0 < n)%nat -> 0 <= timeout -> well_indexed n h -> timely stamp n timeout per h -> run timeout (init n) h = Ok (s, outs) ->
  (i < n)%nat ->
  stream i outs ++ queued i s = stream i (adds h) /\
  exists st, get_queue_status s i = Some st /\ st_dropped st = 0%nat.
Proof.
  intros Hn Ht HW HT Hr Hi. pose proof (the_J n timeout per h s outs Hn Ht HW HT Hr) as HJ.
  pose proof (j_stream _ _ _ _ _ _ HJ i Hi) as HS. split; [symmetry; exact HS|].
  destruct (C45_aligner_accounting stamp int64 n timeout h s outs i Hn Ht HW Hr Hi) as (lost & st & HP & Hst & _ & _ & Hd & _).
  exists st. split; auto. rewrite HS in HP. apply Permutation_length in HP. rewrite !app_length in HP.
  unfold queued in HP. fold (qat i s) in HP. lia.
Qed.

(** C108: the outputs together are in the order of stamps and, for equal stamps, inputs, and everything still queued
    comes later in this order. *)
Theorem C108_aligner_merge_order n timeout per h s outs :
  (0 < n)%nat -> 0 <= timeout -> well_indexed n h -> timely stamp n timeout per h -> run timeout (init n) h = Ok (s, outs) ->
  StronglySorted (before stamp) outs /\
  forall x i e, In x outs -> (i < n)%nat -> In e (queued i s) -> before stamp x (i, e).
Proof.
  intros Hn Ht HW HT Hr. destruct (the_J n timeout per h s outs Hn Ht HW HT Hr) as [_ H1 H2 _ _ _]. split; auto.
Qed.

Lemma stream_out_of_range n (h : list (op E)) i : well_indexed n h -> (n <= i)%nat -> stream i (adds h) = [].
Proof.
  intros [HW _] Hi. destruct (stream i (adds h)) as [|x l] eqn:Hs; auto. exfalso.
  assert (Hx : In (i, x) (adds h)) by (apply stream_In; rewrite Hs; cbn; auto).
  unfold adds in Hx. apply in_flat_map in Hx as (o & Ho & Hx). destruct o as [j e|j p|]; cbn in Hx; try tauto.
  destruct Hx as [Hx|[]]. injection Hx as -> ->. apply HW in Ho. lia.
Qed.
Lemma outs_out_of_range n timeout h s outs i :
  (0 < n)%nat -> 0 <= timeout -> well_indexed n h -> run timeout (init n) h = Ok (s, outs) -> (n <= i)%nat -> stream i outs = [].
Proof.
  intros Hn Ht HW Hr Hi. destruct (the_run stamp int64 n timeout h s outs Hn Ht HW Hr) as [(_ & _ & _ & _ & _ & _ & HQ) _].
  destruct (qi_acct _ _ _ _ _ _ _ (HQ i)) as (D & H1 & _). rewrite (stream_out_of_range n h i HW Hi) in H1.
  apply Permutation_nil in H1. now apply app_eq_nil in H1 as [H1 _].
Qed.

(** C108: once nothing is queued, the outputs are the merge of the inputs. *)
Theorem C108_aligner_merges n timeout per h s outs :
  (0 < n)%nat -> 0 <= timeout -> well_indexed n h -> timely stamp n timeout per h -> run timeout (init n) h = Ok (s, outs) ->
  (forall i, (i < n)%nat -> queued i s = []) -> merge_of stamp (adds h) outs.
Proof.
  intros Hn Ht HW HT Hr Hq. pose proof (the_J n timeout per h s outs Hn Ht HW HT Hr) as HJ. split; [apply HJ|].
  intros i. destruct (le_lt_dec n i) as [Hi|Hi].
  - rewrite (stream_out_of_range n h i HW Hi). eapply outs_out_of_range; eauto.
  - rewrite (j_stream _ _ _ _ _ _ HJ i Hi). fold (queued i s). change (evs (qat i s)) with (queued i s). rewrite Hq by auto. now rewrite app_nil_r.
Qed.

(** C108: there is only one merge. *)
Theorem C108_merge_unique h m m' : merge_of stamp h m -> merge_of stamp h m' -> m = m'.
Proof.
  assert (Hp : forall a b : list (nat * E), (forall i, stream i a = stream i b) -> prefix a b -> a = b).
  { intros a b HE [c ->]. destruct c as [|[i e] c]; [now rewrite app_nil_r|]. exfalso.
    specialize (HE i). rewrite stream_app, stream_cons, Nat.eqb_refl in HE. apply (f_equal (@length _)) in HE.
    rewrite app_length in HE. cbn in HE. lia. }
  intros [HS HE] [HS' HE'].
  destruct (merge_prefixes stamp m m' (fun _ => []) (fun _ => [])) as [H|H]; auto.
  - intros i. now rewrite !app_nil_r, HE, HE'.
  - intros x i e _ [].
  - intros x i e _ [].
  - apply Hp; auto. intros i. congruence.
  - symmetry. apply Hp; auto. intros i. congruence.
Qed.

(** C108: so neither the interleaving of the inputs nor the moments of dispatching matter: of two aligners with the same
    messages on each input, one is a prefix of the other, even if timeouts and periods differ. *)
Theorem C108_aligner_deterministic n timeout per h s outs timeout' per' h' s' outs' :
  (0 < n)%nat ->
  0 <= timeout -> well_indexed n h -> timely stamp n timeout per h -> run timeout (init n) h = Ok (s, outs) ->
  0 <= timeout' -> well_indexed n h' -> timely stamp n timeout' per' h' -> run timeout' (init n) h' = Ok (s', outs') ->
  (forall i, stream i (adds h) = stream i (adds h')) ->
  prefix outs outs' \/ prefix outs' outs.
Proof.
  intros Hn Ht HW HT Hr Ht' HW' HT' Hr' HE.
  pose proof (the_J n timeout per h s outs Hn Ht HW HT Hr) as HJ.
  pose proof (the_J n timeout' per' h' s' outs' Hn Ht' HW' HT' Hr') as HJ'.
  apply (merge_prefixes stamp outs outs' (fun i => if (i <? n)%nat then evs (qat i s) else [])
           (fun i => if (i <? n)%nat then evs (qat i s') else [])).
  - intros i. destruct (Nat.ltb_spec i n) as [Hi|Hi].
    + rewrite <- (j_stream _ _ _ _ _ _ HJ i Hi), <- (j_stream _ _ _ _ _ _ HJ' i Hi). apply HE.
    + rewrite (outs_out_of_range n timeout h s outs i Hn Ht HW Hr Hi), (outs_out_of_range n timeout' h' s' outs' i Hn Ht' HW' Hr' Hi). reflexivity.
  - apply HJ.
  - apply HJ'.
  - intros x i e Hx. destruct (Nat.ltb_spec i n) as [Hi|Hi]; [apply (j_queued _ _ _ _ _ _ HJ); auto|intros []].
  - intros x i e Hx. destruct (Nat.ltb_spec i n) as [Hi|Hi]; [apply (j_queued _ _ _ _ _ _ HJ'); auto|intros []].
Qed.

(** C108: a message is forwarded by the first dispatch at which every other input has a message, or is expected again,
    later than it. *)
Theorem C108_aligner_forwards n timeout per h s outs i e :
  (0 < n)%nat -> 0 <= timeout -> well_indexed n h -> timely stamp n timeout per (h ++ [Dispatch]) ->
  run timeout (init n) (h ++ [Dispatch]) = Ok (s, outs) ->
  In (i, e) (adds h) ->
  (forall j, (j < n)%nat -> j <> i -> exists x, In (j, x) (adds h) /\ stamp e < stamp x + per j) ->
  In (i, e) outs.
Proof.
  intros Hn Ht HW HT Hr He Hj.
  assert (HW' : well_indexed n (h ++ [Dispatch])).
  { destruct HW as [H1 H2]. split; intros k x H; apply in_app_or in H as [H|[H|[]]]; eauto; discriminate. }
  pose proof (the_J n timeout per _ s outs Hn Ht HW' HT Hr) as HJ.
  assert (Hi : (i < n)%nat).
  { destruct (le_lt_dec n i) as [Hi|]; auto. pose proof (stream_out_of_range n h i HW Hi) as H0. apply stream_In in He. now rewrite H0 in He. }
  assert (Hin : In e (stream i outs ++ queued i s)).
  { unfold queued. fold (qat i s). rewrite <- (j_stream _ _ _ _ _ _ HJ i Hi), adds_dispatch. now apply stream_In. }
  apply in_app_or in Hin as [Hin|Hin]; [now apply stream_In|]. exfalso.
  pose proof Hr as Hr2. rewrite run_snoc in Hr2.
  destruct (Aligner_Model.run stamp timeout (init n) h) as [[s0 o0]|] eqn:Hr0; [|discriminate]. cbn [bind] in Hr2.
  destruct (C47_aligner_dispatch_maximal stamp int64 n timeout h s0 o0 Hn Ht HW Hr0) as (s1 & o1 & Hs & Hmax).
  rewrite Hs in Hr2. cbn [bind] in Hr2. injection Hr2 as <- <-.
  destruct Hmax as [Hmax|(j & Hjn & Hje & Hja & _ & Hjle)]; [now rewrite Hmax in Hin|].
  specialize (Hjle i e Hin). destruct (Nat.eq_dec j i) as [->|Hji]; [now rewrite Hje in Hin|].
  destruct (Hj j Hjn Hji) as (x & Hx & Hlt).
  pose proof (j_stream _ _ _ _ _ _ HJ j Hjn) as HSj. change (evs (qat j s1)) with (queued j s1) in HSj.
  rewrite Hje, app_nil_r, adds_dispatch in HSj.
  assert (Hsort : nondecreasing stamp (stream j (adds (h ++ [Dispatch])))) by (eapply timely_sorted; eauto).
  rewrite adds_dispatch in Hsort.
  apply stream_In in Hx. rewrite HSj in Hx, Hsort.
  destruct (stream j (o0 ++ o1)) as [|z l] eqn:Ho using rev_ind; [destruct Hx|]. clear IHl.
  destruct (j_next _ _ _ _ _ _ HJ j l z Hjn Hje Ho) as [_ Hnx]. unfold predicted in Hjle. fold (qat j s1) in Hjle. rewrite Hnx in Hjle.
  assert (stamp x <= stamp z).
  { apply StronglySorted_app in Hsort as (_ & _ & H). apply in_app_or in Hx as [Hx|[->|[]]]; [|lia]. apply (H x z Hx). cbn; auto. }
  lia.
Qed.

(** C109: after a dispatch every message still queued lags less than the timeout behind everything that was accepted,
    whatever the inputs do. *)
Theorem C109_aligner_bounded_lag n timeout h s outs i e :
  (0 < n)%nat -> 0 <= timeout -> well_indexed n h ->
  run timeout (init n) (h ++ [Dispatch]) = Ok (s, outs) -> In e (queued i s) ->
  (forall x, In x outs -> stamp (snd x) - stamp e < timeout) /\
  (forall j x, In x (queued j s) -> stamp x - stamp e < timeout).
Proof.
  intros Hn Ht HW Hr He.
  assert (HW' : well_indexed n (h ++ [Dispatch])).
  { destruct HW as [H1 H2]. split; intros k x H; apply in_app_or in H as [H|[H|[]]]; eauto; discriminate. }
  destruct (C47_aligner_newest_input stamp int64 n timeout _ s outs Hn Ht HW' Hr) as (_ & HN1 & HN2).
  rewrite run_snoc in Hr. destruct (Aligner_Model.run stamp timeout (init n) h) as [[s0 o0]|] eqn:Hr0; [|discriminate]. cbn [bind] in Hr.
  destruct (C47_aligner_dispatch_maximal stamp int64 n timeout h s0 o0 Hn Ht HW Hr0) as (s1 & o1 & Hs & Hmax).
  rewrite Hs in Hr. cbn [bind] in Hr. injection Hr as <- <-.
  destruct Hmax as [Hmax|(j & Hjn & Hje & Hja & Hlt & Hjle)]; [now rewrite Hmax in He|].
  specialize (Hjle i e He). split; [intros x Hx; apply HN1 in Hx; lia|intros k x Hx; apply HN2 in Hx; lia].
Qed.

(** C109: with timeout 0 nothing stays queued after a dispatch. *)
Theorem C109_aligner_zero_timeout n h s outs i :
  (0 < n)%nat -> well_indexed n h -> run 0 (init n) (h ++ [Dispatch]) = Ok (s, outs) -> queued i s = [].
Proof.
  intros Hn HW Hr. destruct (queued i s) as [|e l] eqn:He; auto. exfalso.
  destruct (C109_aligner_bounded_lag n 0 h s outs i e Hn ltac:(lia) HW Hr) as [_ H]; [rewrite He; cbn; auto|].
  specialize (H i e). rewrite He in H. specialize (H (or_introl eq_refl)). lia.
Qed.
End Props.

(** ** Non-vacuity: two inputs with period 10, equal stamps on both, two interleavings. *)
Definition per10 (i : nat) : Z := if (i <? 2)%nat then 10 else 0.
Definition mh1 : list (op Z) :=
  [SetPeriod 0 10; SetPeriod 1 10; Add 1 10; Add 0 10; Dispatch; Add 1 20; Add 1 30; Dispatch; Add 0 20; Dispatch].
Definition mh2 : list (op Z) :=
  [SetPeriod 1 10; SetPeriod 0 10; Add 0 10; Add 0 20; Add 1 10; Add 1 20; Add 1 30; Dispatch].

(** Deciding the conditions for a concrete history. *)
Ltac by_prefix h1 H tac :=
  repeat (destruct h1 as [|? h1]; [cbn in H; first [discriminate H | solve [tac]]|cbn in H; try discriminate H; injection H as <- H]).
Lemma two (i : nat) : (i < 2)%nat -> i = 0%nat \/ i = 1%nat.
Proof. lia. Qed.
Ltac timely_tac h :=
  constructor;
  [ intros i; unfold per10; destruct (i <? 2)%nat; lia
  | intros h1 h2 i H Hne Hi; apply two in Hi; unfold h in H;
    by_prefix h1 H ltac:(first [now cbn in Hne | now destruct Hi as [-> | ->]])
  | intros i e H; cbn in H; repeat (destruct H as [H|H]; [injection H as <- <-; cbn; lia|]); destruct H
  | intros i l1 x y l2 H; destruct i as [|[|i]]; cbn in H;
    by_prefix l1 H ltac:(injection H as <- <- _; cbn; lia)
  | intros h1 h2 i y H Hi Hy; apply two in Hi; unfold h in H;
    by_prefix h1 H ltac:(cbn in Hy;
      repeat (destruct Hy as [Hy|Hy]; [subst y; destruct Hi as [-> | ->];
        first [solve [exists 10; cbn; split; [auto 10|lia]] | solve [exists 20; cbn; split; [auto 10|lia]]]|]); destruct Hy) ].
Example timely_mh1 : timely ms 2 15 per10 mh1.
Proof. timely_tac mh1. Qed.
Example timely_mh2 : timely ms 2 15 per10 mh2.
Proof. timely_tac mh2. Qed.
Example well_indexed_mh : well_indexed 2 mh1 /\ well_indexed 2 mh2.
Proof. split; split; intros i e H; cbn in H; repeat (destruct H as [H|H]; [inversion H; lia|]); destruct H. Qed.
(** Both give the merge; the last message waits for input 0. *)
Example C108_nonvacuous :
  (forall i, stream i (adds mh1) = stream i (adds mh2)) /\
  (forall h, h = mh1 \/ h = mh2 ->
    match run ms 15 (init 2) h with
    | Ok (s, outs) => outs = [(0%nat, 10); (1%nat, 10); (0%nat, 20); (1%nat, 20)] /\ queued 1 s = [30]
    | Err _ => False end).
Proof. split; [intros [|[|i]]; reflexivity|]. intros h [-> | ->]; vm_compute; auto. Qed.
(** Without the condition that no input has fallen behind the late message of input 0 is lost. *)
Example C108_late_lost :
  match run ms 15 (init 2) [SetPeriod 0 10; SetPeriod 1 10; Add 0 10; Add 1 10; Add 1 20; Add 1 40; Dispatch; Add 0 20; Dispatch] with
  | Ok (s, outs) => outs = [(0%nat, 10); (1%nat, 10); (1%nat, 20); (1%nat, 40)] | Err _ => False end.
Proof. vm_compute. reflexivity. Qed.
(** C109: a message waits within the timeout; a newer one ends the wait. *)
Example C109_nonvacuous :
  match run ms 15 (init 2) (mh1 ++ [Dispatch]) with Ok (s, _) => queued 1 s = [30] | Err _ => False end /\
  match run ms 15 (init 2) (mh1 ++ [Add 1 45; Dispatch]) with Ok (s, _) => queued 1 s = [] | Err _ => False end.
Proof. split; vm_compute; reflexivity. Qed.

Print Assumptions C108_aligner_keeps_all.
Print Assumptions C108_aligner_merge_order.
Print Assumptions C108_aligner_merges.
Print Assumptions C108_merge_unique.
Print Assumptions C108_aligner_deterministic.
Print Assumptions C108_aligner_forwards.
Print Assumptions C109_aligner_bounded_lag.
Print Assumptions C109_aligner_zero_timeout.
