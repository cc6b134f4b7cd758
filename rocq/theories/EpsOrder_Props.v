(** Properties C103 and C104: what ApproximateEpsilonTime outputs is determined by what each input
    receives, and complete groups of messages are always output. *)
From Coq Require Import List Arith ZArith Lia Bool Sorted Permutation.
From Verif Require Import Base RclTime Trace Eps_Model Eps_Spec Eps_Proofs Eps_Props EpsOrder_Spec EpsOrder_Proofs.
From Verif Require Net_Model Net_Spec E2E_Spec E2E_Props.
Import ListNotations.
Local Open Scope Z_scope.

Section Props.
Context {E : Type} (stamp : E -> Z).
Hypothesis int64 : forall e, stamp e <= int64_max.
Notation run := (run stamp).

Lemma events_pending n (s : state E) : length (events s) = n -> events s = map (fun i => pending i s) (seq 0 n).
Proof.
  intros HL. apply (list_eq_nth []); [now rewrite map_length, seq_length|].
  intros i Hi. rewrite nth_map_seq by lia. reflexivity.
Qed.

(** C103: if the queues are long enough, the sets output and the messages still pending are what
    reading the streams side by side gives and leaves. *)
Theorem C103_eps_reads_streams n q eps h s outs :
  (0 < n)%nat -> 0 <= eps -> well_indexed n h -> queue_suffices stamp n q eps h ->
  run n q eps (init n) h = Ok (s, outs) ->
  read_all stamp eps (streams n h) outs (map (fun i => pending i s) (seq 0 n)).
Proof.
  intros Hn He HW HQ Hr. destruct (run_read stamp n q eps int64 He h Hn HW HQ) as (s' & o' & Hr' & [HL _] & _ & HR).
  rewrite Hr in Hr'. injection Hr' as <- <-. now rewrite <- events_pending.
Qed.

(** Reading has one result only. *)
Theorem C103_reading_is_deterministic eps (qs o1 r1 o2 r2 : list (list E)) :
  read_all stamp eps qs o1 r1 -> read_all stamp eps qs o2 r2 -> o1 = o2 /\ r1 = r2.
Proof. apply read_all_det. Qed.

(** C103: the order in which messages of different inputs arrive makes no difference. *)
Theorem C103_eps_order_independent n q q' eps h h' s outs s' outs' :
  (0 < n)%nat -> 0 <= eps -> well_indexed n h -> well_indexed n h' ->
  (forall i, (i < n)%nat -> stream i h = stream i h') ->
  queue_suffices stamp n q eps h -> queue_suffices stamp n q' eps h' ->
  run n q eps (init n) h = Ok (s, outs) -> run n q' eps (init n) h' = Ok (s', outs') ->
  outs = outs' /\ forall i, pending i s = pending i s'.
Proof.
  intros Hn He HW HW' HS HQ HQ' Hr Hr'.
  destruct (run_read stamp n q eps int64 He h Hn HW HQ) as (s1 & o1 & R1 & [L1 _] & _ & D1). rewrite Hr in R1. injection R1 as <- <-.
  destruct (run_read stamp n q' eps int64 He h' Hn HW' HQ') as (s2 & o2 & R2 & [L2 _] & _ & D2). rewrite Hr' in R2. injection R2 as <- <-.
  assert (streams n h = streams n h') as ES.
  { unfold streams. apply map_ext_in. intros i Hi. apply in_seq in Hi. apply HS. lia. }
  rewrite ES in D1. destruct (read_all_det _ _ _ _ _ _ _ D1 D2) as [-> HE]. split; auto. intros i. unfold pending. now rewrite HE.
Qed.

(** C103: messages received later never change what is output before, on whatever inputs they
    arrive and however they interleave. *)
Theorem C103_eps_prefix n q q' eps h h' s outs s' outs' :
  (0 < n)%nat -> 0 <= eps -> well_indexed n h -> well_indexed n h' ->
  (forall i, (i < n)%nat -> prefix (stream i h) (stream i h')) ->
  queue_suffices stamp n q eps h -> queue_suffices stamp n q' eps h' ->
  run n q eps (init n) h = Ok (s, outs) -> run n q' eps (init n) h' = Ok (s', outs') ->
  prefix outs outs'.
Proof.
  intros Hn He HW HW' HS HQ HQ' Hr Hr'.
  destruct (run_read stamp n q eps int64 He h Hn HW HQ) as (s1 & o1 & R1 & [L1 _] & _ & D1). rewrite Hr in R1. injection R1 as <- <-.
  destruct (run_read stamp n q' eps int64 He h' Hn HW' HQ') as (s2 & o2 & R2 & [L2 _] & _ & D2). rewrite Hr' in R2. injection R2 as <- <-.
  set (xs := map (fun i => skipn (length (stream i h)) (stream i h')) (seq 0 n)).
  assert (streams n h' = more (streams n h) xs) as ES.
  { apply (list_eq_nth []).
    - unfold more, streams, xs. rewrite !map_length, combine_length, !map_length. lia.
    - unfold streams at 1. rewrite map_length, seq_length. intros i Hi.
      change (nth i (more (streams n h) xs) []) with (at_ i (more (streams n h) xs)).
      rewrite (more_at n); [|unfold streams; now rewrite map_length, seq_length|unfold xs; now rewrite map_length, seq_length].
      unfold at_, streams, xs. rewrite !nth_map_seq by auto. destruct (HS i Hi) as [c ->].
      f_equal. now rewrite skipn_app, skipn_all, Nat.sub_diag. }
  rewrite ES in D2. apply (read_all_more stamp eps (streams n h) outs (events s) xs outs' (events s')); auto. unfold xs, streams. now rewrite !map_length.
Qed.

(** Enough room for everything received is always enough. *)
Lemma read_suffix eps (qs outs rest : list (list E)) : read stamp eps qs outs rest ->
  forall v, In v rest -> exists w c, In w qs /\ w = c ++ v.
Proof.
  induction 1 as [qs|qs hs outs rest _ _ _ IH|qs hs m outs rest _ _ _ _ _ IH]; intros v Hv.
  - exists v, []. auto.
  - destruct (IH v Hv) as (w & c & Hw & ->). apply in_map_iff in Hw as (u & Hu & Hin).
    destruct u as [|x u]; cbn in Hu; [destruct c; [|discriminate]; cbn in Hu; subst v; exists [], []; auto|].
    exists (x :: u), (x :: c). split; auto. cbn. now rewrite Hu.
  - destruct (IH v Hv) as (w & c & Hw & ->). apply in_map_iff in Hw as (u & Hu & Hin).
    destruct u as [|x u]; cbn in Hu; [destruct c; [|discriminate]; cbn in Hu; subst v; exists [], []; auto|].
    destruct (stamp x <=? _).
    + exists (x :: u), (x :: c). split; auto. cbn. now rewrite Hu.
    + exists (x :: u), c. auto.
Qed.
Theorem C103_queue_of_everything_suffices n q eps (h : list (nat * E)) :
  (forall i, (i < n)%nat -> (length (stream i h) <= q)%nat) -> queue_suffices stamp n q eps h.
Proof.
  intros H h1 h2 outs rest v -> [HR _] Hv. destruct (read_suffix _ _ _ _ HR v Hv) as (w & c & Hw & Ew).
  unfold streams in Hw. apply in_map_iff in Hw as (i & Hi & Hin). apply in_seq in Hin.
  specialize (H i ltac:(lia)). rewrite stream_app, app_length in H.
  rewrite Hi, Ew, app_length in H. lia.
Qed.

Lemma queue_suffices_le n q q' eps (h : list (nat * E)) :
  (q <= q')%nat -> queue_suffices stamp n q eps h -> queue_suffices stamp n q' eps h.
Proof. intros Hq H h1 h2 outs rest v E1 HR Hv. specialize (H h1 h2 outs rest v E1 HR Hv). lia. Qed.

Lemma stream_length_le i (h : list (nat * E)) : (length (stream i h) <= length h)%nat.
Proof.
  induction h as [|[j e] h IH]; [auto|]. rewrite stream_cons. destruct (j =? i)%nat; cbn; lia.
Qed.

Lemma some_or_all {A} m (P Q : nat -> A -> Prop) :
  (forall i, (i < m)%nat -> (exists e, P i e) \/ (exists e, Q i e)) ->
  (exists i e, P i e) \/ forall i, (i < m)%nat -> exists e, Q i e.
Proof.
  induction m as [|m IH]; intros H; [right; intros; lia|].
  destruct IH as [IH|IH]; [intros; apply H; lia|auto|].
  destruct (H m ltac:(lia)) as [(e & He)|He]; [left; eauto|]. right. intros i Hi.
  destruct (Nat.eq_dec i m) as [->|]; auto. apply IH. lia.
Qed.

(** C104: inputs in order of time, messages in groups that are further apart than epsilon, in each
    at most one message per input.  The sets output are exactly the groups with a message of
    every input, each once. *)
Theorem C104_eps_outputs_exactly_the_groups n q eps h s outs :
  (0 < n)%nat -> 0 <= eps -> well_indexed n h -> time_ordered stamp n h -> one_per_group stamp eps h ->
  queue_suffices stamp n q eps h ->
  run n q eps (init n) h = Ok (s, outs) ->
  NoDup outs /\ forall X, In X outs <-> group stamp n eps h X.
Proof.
  intros Hn He HW HT (HTr & HND & H1) HQ Hr.
  set (q' := Nat.max q (length h)).
  assert (queue_suffices stamp n q' eps h) as HQ' by (eapply queue_suffices_le; [|exact HQ]; lia).
  destruct (run_read stamp n q' eps int64 He h Hn HW HQ') as (s2 & o2 & R2 & _).
  destruct (C103_eps_order_independent n q q' eps h h s outs s2 o2) as (-> & HP); auto.
  destruct (C26_eps_discards_only_unusable_partial stamp int64 n q' eps h s2 o2) as (D & V & HA & HV & HU); auto.
  assert (forall i, V i = []) as HV0.
  { intros i. apply HV. pose proof (stream_length_le i h). lia. }
  assert (forall X, In X o2 -> group stamp n eps h X) as Hsound.
  { intros X HX. destruct (C22_eps_sets_fit stamp int64 n q' eps h s2 o2 X) as (HL & HF); auto.
    split; [auto|split]; auto. intros i e Hi. eapply (C23_eps_set_slots stamp int64 n q' eps h s2 o2); eauto. }
  split.
  - (* each once *)
    pose proof (C23_eps_subsequence stamp int64 n q' eps h s2 o2 0 Hn He HW R2) as HS.
    assert (NoDup (column 0 o2)) as HN.
    { eapply subseq_nodup; [|apply (HND 0%nat)]. eapply subseq_trans; [|exact HS].
      rewrite <- (app_nil_r (column 0 o2)) at 1. apply subseq_app; [apply subseq_refl|constructor]. }
    assert (forall X, In X o2 -> length X = n) as HLen by (intros X HX; apply (Hsound X HX)).
    clear -Hn HN HLen. induction o2 as [|X o IH]; constructor.
    + intros Hin. cbn in HN. specialize (HLen X (or_introl eq_refl)). destruct X as [|x X]; [cbn in HLen; lia|].
      cbn in HN. inversion HN; subst. apply H1. unfold column. apply in_flat_map. exists (x :: X). cbn; auto.
    + apply IH; [|intros; apply HLen; cbn; auto]. cbn in HN. destruct X as [|x X]; cbn in HN; auto. now inversion HN.
  - intros X. split; [apply Hsound|]. intros (HL & HF & HX).
    assert (forall i, (i < n)%nat -> exists e, nth_error X i = Some e) as HE.
    { intros i Hi. destruct (nth_error X i) eqn:Ei; [eauto|]. apply nth_error_None in Ei. lia. }
    assert (Hcl : forall i j a b, nth_error X i = Some a -> nth_error X j = Some b -> close stamp eps a b).
    { intros i j a b Ha Hb. apply nth_error_In in Ha, Hb. pose proof (HF a b Ha Hb). pose proof (HF b a Hb Ha). unfold close. lia. }
    assert (Hwhere : forall i e, nth_error X i = Some e -> In e (column i o2) \/ In e (D i) \/ In e (pending i s2)).
    { intros i e Hi. pose proof (HX i e Hi) as Hin. apply stream_in in Hin.
      eapply Permutation_in in Hin; [|apply HA]. rewrite HV0 in Hin. cbn in Hin. rewrite !in_app_iff in Hin. tauto. }
    assert (Hone : (exists i e, nth_error X i = Some e /\ In e (column i o2)) \/
                   forall i, (i < n)%nat -> exists e, nth_error X i = Some e /\ (In e (D i) \/ In e (pending i s2))).
    { apply (some_or_all n (fun i e => nth_error X i = Some e /\ In e (column i o2)) (fun i e => nth_error X i = Some e /\ (In e (D i) \/ In e (pending i s2)))). intros i Hi. destruct (HE i Hi) as (e & Ei). destruct (Hwhere i e Ei); eauto 6. }
    assert (Hfound : forall i e, nth_error X i = Some e -> In e (column i o2) -> In X o2).
    { intros i e Ei Hin. unfold column in Hin. apply in_flat_map in Hin as (Y & HY & HeY).
      destruct (nth_error Y i) as [e'|] eqn:EY; [|destruct HeY]. destruct HeY as [->|[]].
      destruct (Hsound Y HY) as (HLY & HFY & HinY).
      replace X with Y; auto. apply nth_error_ext_eq. intros j. destruct (lt_dec j n) as [Hj|Hj].
      - destruct (HE j Hj) as (x & Ex). rewrite Ex. destruct (nth_error Y j) as [y|] eqn:Ey; [|apply nth_error_None in Ey; lia].
        f_equal. apply (H1 j); auto. apply (HTr j i j y e x); auto; [|now apply (Hcl i j)].
        pose proof (nth_error_In _ _ Ey) as I1. pose proof (nth_error_In _ _ EY) as I2.
        pose proof (HFY y e I1 I2). pose proof (HFY e y I2 I1). unfold close. lia.
      - rewrite !(proj2 (nth_error_None _ _)) by lia. reflexivity. }
    destruct Hone as [(i & e & Ei & Hin)|Hall]; [eauto|].
    assert (Hpend : (exists i e, nth_error X i = Some e /\ In e (D i)) \/
                    forall i, (i < n)%nat -> exists e, nth_error X i = Some e /\ In e (pending i s2)).
    { apply (some_or_all n (fun i e => nth_error X i = Some e /\ In e (D i)) (fun i e => nth_error X i = Some e /\ In e (pending i s2))). intros i Hi. destruct (Hall i Hi) as (e & Ei & [|]); eauto. }
    destruct Hpend as [(j & x & Ej & Hin)|Hpend].
    + destruct (HU j x Hin) as (k & Hk & _ & Hno). destruct (Hall k Hk) as (y & Ek & Hy). exfalso.
      apply (Hno [] y); [now rewrite app_nil_r| |eauto]. rewrite !in_app_iff. tauto.
    + destruct (C24_eps_bounded stamp int64 n q' eps h s2 o2 Hn He HW R2) as (_ & i & Hi & Hemp).
      destruct (Hpend i Hi) as (e & _ & Hin). rewrite Hemp in Hin. destruct Hin.
Qed.
End Props.

(** C103, in networks: two networks whose filters signal the same messages, up to when one stops.
    The synchronizers output the same sets, up to when one stops, however the messages interleave. *)
Theorem C103_eps_network_independent {S M U} (stamp : M -> Z) fuel h1 n fs h2 (tr : list (Net_Model.obs M U))
    fuel' h1' n' fs' h2' (tr' : list (Net_Model.obs M U)) k q q' eps outs outs' :
  (forall e, stamp e <= int64_max) -> (0 < k)%nat -> 0 <= eps ->
  @E2E_Spec.synchronizes S M U fuel h1 n k fs h2 tr -> @E2E_Spec.synchronizes S M U fuel' h1' n' k fs' h2' tr' ->
  (forall i f f', nth_error fs i = Some f -> nth_error fs' i = Some f' ->
     prefix (Net_Spec.outputs f tr) (Net_Spec.outputs f' tr')) ->
  queue_suffices stamp k q eps (Net_Spec.received n tr) -> queue_suffices stamp k q' eps (Net_Spec.received n' tr') ->
  E2E_Spec.eps_sets stamp k q eps n tr = Ok outs -> E2E_Spec.eps_sets stamp k q' eps n' tr' = Ok outs' ->
  prefix outs outs'.
Proof.
  intros Hm Hk He Hs Hs' HF HQ HQ' R R'.
  destruct (E2E_Props.synchronizes_streams _ _ _ _ _ _ _ Hs) as (HS & HW).
  destruct (E2E_Props.synchronizes_streams _ _ _ _ _ _ _ Hs') as (HS' & HW').
  pose proof (E2E_Spec.sy_all _ _ _ _ _ _ _ Hs) as HL. pose proof (E2E_Spec.sy_all _ _ _ _ _ _ _ Hs') as HL'.
  unfold E2E_Spec.eps_sets in R, R'.
  destruct (Eps_Model.run stamp k q eps (Eps_Model.init k) (Net_Spec.received n tr)) as [[s1 o1]|] eqn:E1; [|discriminate].
  destruct (Eps_Model.run stamp k q' eps (Eps_Model.init k) (Net_Spec.received n' tr')) as [[s2 o2]|] eqn:E2; [|discriminate].
  cbn in R, R'. injection R as <-. injection R' as <-.
  apply (C103_eps_prefix stamp Hm k q q' eps (Net_Spec.received n tr) (Net_Spec.received n' tr') s1 o1 s2 o2); auto.
  intros i Hi. destruct (nth_error fs i) as [f|] eqn:Ef; [|apply nth_error_None in Ef; lia].
  destruct (nth_error fs' i) as [f'|] eqn:Ef'; [|apply nth_error_None in Ef'; lia].
  rewrite (HS i f Ef), (HS' i f' Ef'). eauto.
Qed.

(** ** Non-vacuity *)
(** the history of [Eps_Props.ex_h] and another interleaving of the same streams; [ms] meets the
    assumption on stamps by [Eps_Props.ms_int64] *)
Definition ex_h' : list (nat * Z) :=
  [(1%nat, 3); (1%nat, 41); (1%nat, 60); (2%nat, 1); (2%nat, 21); (0%nat, 0); (2%nat, 42); (0%nat, 20); (0%nat, 40)].
Example C103_nonvacuous :
  (forall i, (i < 3)%nat -> stream i ex_h = stream i ex_h') /\
  well_indexed 3 ex_h /\ well_indexed 3 ex_h' /\
  queue_suffices ms 3 5 5 ex_h /\ queue_suffices ms 3 5 5 ex_h' /\
  run ms 3 5 5 (init 3) ex_h = Ok (mkState 1 [[]; [60]; []], [[0; 3; 1]; [40; 41; 42]]) /\
  run ms 3 5 5 (init 3) ex_h' = Ok (mkState 1 [[]; [60]; []], [[0; 3; 1]; [40; 41; 42]]).
Proof.
  split; [|split; [|split; [|split; [|split; [|split]]]]]; try reflexivity.
  - intros [|[|[|i]]] Hi; [reflexivity..|lia].
  - intros i e H. cbn in H. repeat (destruct H as [[= <- <-]|H]; [lia|]). destruct H.
  - intros i e H. cbn in H. repeat (destruct H as [[= <- <-]|H]; [lia|]). destruct H.
  - apply C103_queue_of_everything_suffices. intros [|[|[|i]]] Hi; cbn; lia.
  - apply C103_queue_of_everything_suffices. intros [|[|[|i]]] Hi; cbn; lia.
Qed.
(** the condition on the queues is needed: with queues of one message nothing is output *)
Example C103_overflow_matters : run ms 3 1 5 (init 3) ex_h' = Ok (mkState 1 [[]; [60]; []], []).
Proof. reflexivity. Qed.
(** queues much shorter than the streams suffice: one message waits at a time *)
Definition ex_short : list (nat * Z) := [(0%nat, 0); (1%nat, 1); (0%nat, 10); (1%nat, 11); (0%nat, 20)].
Example C103_short_queue_suffices :
  queue_suffices ms 2 1 5 ex_short /\ run ms 2 1 5 (init 2) ex_short = Ok (mkState 1 [[20]; []], [[0; 1]; [10; 11]]).
Proof.
  split; [|reflexivity]. intros h1 h2 outs rest v Eh HR Hv.
  assert (HW : well_indexed 2 h1).
  { intros i e Hin. assert (In (i, e) ex_short) as H by (rewrite Eh; apply in_or_app; auto).
    cbn in H. repeat (destruct H as [[= <- <-]|H]; [lia|]). destruct H. }
  assert (HQ : queue_suffices ms 2 10 5 h1).
  { apply C103_queue_of_everything_suffices. intros i _. pose proof (stream_length_le i h1).
    assert (length ex_short = length h1 + length h2)%nat as HL by (rewrite Eh; apply app_length). cbn in HL. lia. }
  destruct (C25_eps_total ms ms_int64 2 10 5 h1) as (s & o & Hr); auto; try lia.
  pose proof (C103_eps_reads_streams ms ms_int64 2 10 5 h1 s o ltac:(lia) ltac:(lia) HW HQ Hr) as HR'.
  destruct (read_all_det _ _ _ _ _ _ _ HR HR') as [-> ->].
  unfold ex_short in Eh.
  repeat (destruct h1 as [|? h1];
    [vm_compute in Hr; injection Hr as <- <-; cbn in Hv; decompose [or] Hv; subst; cbn; try lia; contradiction|
     cbn in Eh; try discriminate Eh; injection Eh as <- Eh]).
Qed.
(** a group is output although other messages of its inputs were skipped; 20 and 21 are not a
    group as there is no message of input 1 *)
Example C104_nonvacuous :
  one_per_group ms 5 ex_h /\ group ms 3 5 ex_h [40; 41; 42] /\ ~ exists X, group ms 3 5 ex_h X /\ In 20 X.
Proof.
  destruct C22_C26_nonvacuous as (HW & HT & HC & Hr).
  assert (HO : one_per_group ms 5 ex_h).
  { split; [exact HC|split].
    - intros [|[|[|i]]]; try (cbn; repeat constructor; cbn; intuition lia).
    - intros i x y Hx Hy Hxy. unfold close, ms, int64_max in Hxy. cbn in Hx, Hy.
      repeat (destruct Hx as [[= <- <-]|Hx];
        [repeat (destruct Hy as [Hy|Hy]; [try discriminate Hy; injection Hy as Hy; subst y; cbn in Hxy; lia|]); destruct Hy|]).
      destruct Hx. }
  assert (HQ : queue_suffices ms 3 5 5 ex_h) by apply C103_nonvacuous.
  destruct (C104_eps_outputs_exactly_the_groups ms ms_int64 3 5 5 ex_h _ _ ltac:(lia) ltac:(lia) HW HT HO HQ Hr) as (_ & HG).
  split; [exact HO|]. split; [apply HG; cbn; auto|].
  intros (X & HX & Hin). apply HG in HX. cbn in HX. decompose [or] HX; subst; cbn in Hin; intuition lia.
Qed.

Print Assumptions C103_eps_reads_streams.
Print Assumptions C103_reading_is_deterministic.
Print Assumptions C103_eps_order_independent.
Print Assumptions C103_eps_prefix.
Print Assumptions C103_queue_of_everything_suffices.
Print Assumptions C103_eps_network_independent.
Print Assumptions C104_eps_outputs_exactly_the_groups.
