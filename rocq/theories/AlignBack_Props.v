(** Property C121: output callbacks may use the InputAligner that calls them.
    [run_cb stamp timeout cb (init n) [] h] is an aligner with [n] inputs after the calls [h] from
    outside, with the callback [cb] on its outputs: its state and what happened, in order. *)
From Coq Require Import List Arith ZArith Lia Bool Sorted Permutation.
From Verif Require Import Base RclTime Trace Aligner_Model Aligner_Spec Aligner_Proofs Aligner_Props
  AlignBack_Model AlignBack_Spec AlignBack_Proofs.
Import ListNotations.
Local Open Scope Z_scope.

Section Props.
Context {E : Type} (stamp : E -> Z).
Hypothesis int64 : forall e, stamp e < int64_max.
Variable cb : list (nat * E) -> list status -> list (op E).
Notation runs n timeout h := (run_cb stamp timeout cb (init n) [] h).

Lemma the_run_cb n timeout h s tr :
  (0 < n)%nat -> 0 <= timeout -> only_periods n cb -> well_indexed n h -> runs n timeout h = Ok (s, tr) ->
  K stamp n timeout cb tr s /\ main_calls tr = h.
Proof.
  intros Hn Ht Hcb HW Hr.
  destruct (K_run stamp n timeout cb int64 h [] (init n) Hn Ht Hcb HW (K_init stamp n timeout cb)) as (s' & t & Hr' & HK & HM).
  rewrite Hr in Hr'. injection Hr' as <- <-. auto.
Qed.

(** Callbacks that set periods never make the aligner fail, block or loop. *)
Theorem C121_callbacks_never_fail n timeout h :
  (0 < n)%nat -> 0 <= timeout -> only_periods n cb -> well_indexed n h ->
  exists s tr, runs n timeout h = Ok (s, tr).
Proof.
  intros Hn Ht Hcb HW.
  destruct (K_run stamp n timeout cb int64 h [] (init n) Hn Ht Hcb HW (K_init stamp n timeout cb)) as (s' & t & Hr' & _). eauto.
Qed.

(** A callback that adds a message or dispatches blocks for ever with the first message
    forwarded; up to then it makes no difference. *)
Theorem C121_locking_in_a_callback_deadlocks n timeout h s o :
  locks_first cb -> run stamp timeout (init n) h = Ok (s, o) ->
  match o with
  | [] => exists tr, runs n timeout h = Ok (s, tr) /\ outs tr = []
  | _ => runs n timeout h = Err Deadlock
  end.
Proof.
  intros Hcb Hr. pose proof (run_like stamp timeout cb true h (init n) s [] o Hcb Hr) as H.
  destruct o; exact H.
Qed.

(** A callback that calls nothing: the aligner without callbacks. *)
Theorem C121_no_calls_no_difference n timeout h s o :
  (forall x st, cb x st = []) -> run stamp timeout (init n) h = Ok (s, o) ->
  exists tr, runs n timeout h = Ok (s, tr) /\ outs tr = o.
Proof.
  intros Hcb Hr. exact (run_like stamp timeout cb false h (init n) s [] o Hcb Hr).
Qed.

(** The calls from outside are the ones asked for; with each message forwarded the callback is
    called once, at that moment, with all messages forwarded up to it. *)
Theorem C121_one_callback_per_message n timeout h s tr :
  (0 < n)%nat -> 0 <= timeout -> only_periods n cb -> well_indexed n h -> runs n timeout h = Ok (s, tr) ->
  main_calls tr = h /\
  forall a i e st b, tr = a ++ Forward i e st :: b -> calls_inside b = cb (outs a ++ [(i, e)]) st.
Proof.
  intros Hn Ht Hcb HW Hr. destruct (the_run_cb n timeout h s tr Hn Ht Hcb HW Hr) as [HK HM]. split; auto.
  intros a i e st b Hs. destruct (k_fwd _ _ _ _ _ _ HK a i e st b Hs) as (s0 & s1 & _ & _ & _ & _ & H). exact H.
Qed.

(** What getQueueStatus tells a callback about the inputs: what was added before is forwarded,
    waiting or dropped as counted; the message just forwarded still counts as waiting and its
    input as active. *)
Theorem C121_status_seen_by_a_callback n timeout h s tr a i e st b :
  (0 < n)%nat -> 0 <= timeout -> only_periods n cb -> well_indexed n h -> runs n timeout h = Ok (s, tr) ->
  tr = a ++ Forward i e st :: b ->
  length st = n /\ (i < n)%nat /\
  forall j, (j < n)%nat -> exists x waiting lost,
    nth_error st j = Some x /\
    Permutation (stream j (adds (main_calls a))) (stream j (outs a) ++ waiting ++ lost) /\
    st_processed x = length (stream j (outs a)) /\ st_size x = length waiting /\ st_dropped x = length lost /\
    (j = i -> In e waiting /\ st_active x = true).
Proof.
  intros Hn Ht Hcb HW Hr Hs. destruct (the_run_cb n timeout h s tr Hn Ht Hcb HW Hr) as [HK _].
  destruct (k_fwd _ _ _ _ _ _ HK a i e st b Hs) as (s0 & s1 & HI & HR & Hd & -> & _).
  assert (Hadds : adds (history a) = adds (main_calls a)).
  { apply adds_history. intros o Ho j e' ->. destruct (k_in _ _ _ _ _ _ HK (Add j e')) as (x & p & Hp); [|discriminate].
    rewrite Hs. apply in_or_app. auto. }
  destruct HI as (HL & _ & _ & _ & _ & _ & HQ).
  destruct (forward_cond stamp n timeout _ _ _ _ _ _ _ Hn HR Hd) as (Hi & Hhd & _).
  split; [unfold statuses; now rewrite map_length|]. split; auto. intros j Hj.
  destruct (qi_acct _ _ _ _ _ _ _ (HQ j)) as (D & H1 & H2 & H3 & _). rewrite Hadds in H1.
  exists (get_status (touch stamp (qat j s0))), (evs (qat j s0)), D. split; [|split; [exact H1|]].
  - unfold statuses. rewrite nth_error_map, (nth_error_nth' (queues s0) queue_init) by lia. reflexivity.
  - cbn. rewrite touch_evs, touch_processed, touch_dropped. repeat split; auto; subst j.
    + destruct (evs (qat i s0)); [discriminate|]. injection Hhd as ->. now left.
    + apply touch_active. now destruct (evs (qat i s0)).
Qed.

(** Everything forwarded is in time order, whatever the callbacks set. *)
Theorem C121_ordered n timeout h s tr :
  (0 < n)%nat -> 0 <= timeout -> only_periods n cb -> well_indexed n h -> runs n timeout h = Ok (s, tr) ->
  nondecreasing (fun x => stamp (snd x)) (outs tr).
Proof.
  intros Hn Ht Hcb HW Hr. destruct (the_run_cb n timeout h s tr Hn Ht Hcb HW Hr) as [[(_ & H & _) _ _ _ _] _]. exact H.
Qed.

(** Per input: messages with equal stamps keep their order; what was added is what was forwarded
    plus what is queued plus what was dropped, as counted; a message is dropped only on arrival
    and only if stamped before the epoch or before something forwarded earlier. *)
Theorem C121_accounting n timeout h s tr i :
  (0 < n)%nat -> 0 <= timeout -> only_periods n cb -> well_indexed n h -> runs n timeout h = Ok (s, tr) -> (i < n)%nat ->
  (forall t, subseq (filter (fun e => stamp e =? t) (stream i (outs tr) ++ queued i s))
                    (filter (fun e => stamp e =? t) (stream i (adds h)))) /\
  exists lost x,
    Permutation (stream i (adds h)) (stream i (outs tr) ++ queued i s ++ lost) /\
    get_queue_status s i = Some x /\
    st_size x = length (queued i s) /\ st_processed x = length (stream i (outs tr)) /\ st_dropped x = length lost /\
    forall e, In e lost -> exists a b, tr = a ++ Main (Add i e) :: b /\
      (stamp e < 0 \/ exists y, In y (outs a) /\ stamp e < stamp (snd y)).
Proof.
  intros Hn Ht Hcb HW Hr Hi. destruct (the_run_cb n timeout h s tr Hn Ht Hcb HW Hr) as [[(HL & _ & _ & _ & _ & _ & HQ) _ _ _ K5] HM].
  assert (Hadds : adds (history tr) = adds h).
  { rewrite <- HM. apply adds_history. intros o Ho j e ->. destruct (K5 _ Ho) as (x & p & Hp). discriminate. }
  destruct (HQ i) as [_ _ _ _ (D & H1 & H2 & H3 & H4) H5]. rewrite Hadds in *. split; [exact H5|].
  exists D, (get_status (qat i s)). split; auto. split.
  { unfold get_queue_status. now rewrite (nth_error_nth' (queues s) queue_init) by lia. }
  split; auto. split; auto. split; auto. intros e He. apply dropped_trace; auto.
Qed.

(** The time the timeout is measured against is the newest stamp accepted so far. *)
Theorem C121_newest_input n timeout h s tr :
  (0 < n)%nat -> 0 <= timeout -> only_periods n cb -> well_indexed n h -> runs n timeout h = Ok (s, tr) ->
  (last_in s = 0 \/ exists x, In x (adds h) /\ stamp (snd x) = last_in s) /\
  (forall x, In x (outs tr) -> stamp (snd x) <= last_in s) /\
  (forall i x, In x (queued i s) -> stamp x <= last_in s).
Proof.
  intros Hn Ht Hcb HW Hr. destruct (the_run_cb n timeout h s tr Hn Ht Hcb HW Hr) as [[(_ & _ & _ & _ & _ & (H1 & H2 & H3) & _) _ _ _ K5] HM].
  split; [|split; [exact H2|exact H1]].
  assert (Hadds : adds (history tr) = adds h).
  { rewrite <- HM. apply adds_history. intros o Ho j e ->. destruct (K5 _ Ho) as (x & p & Hp). discriminate. }
  rewrite Hadds in H3. exact H3.
Qed.

(** dispatchMessages still stops only when nothing is queued or everything queued must wait for
    an active input without messages whose prediction is not later and has not timed out. *)
Theorem C121_dispatch_maximal n timeout h s tr :
  (0 < n)%nat -> 0 <= timeout -> only_periods n cb -> well_indexed n h ->
  runs n timeout (h ++ [Dispatch]) = Ok (s, tr) ->
  (forall j, queued j s = []) \/
  exists j, (j < n)%nat /\ queued j s = [] /\ is_active j s = true /\
    last_in s - predicted j s < timeout /\
    forall k x, In x (queued k s) -> predicted j s <= stamp x.
Proof.
  intros Hn Ht Hcb HW Hr.
  destruct (K_run stamp n timeout cb int64 h [] (init n) Hn Ht Hcb HW (K_init stamp n timeout cb)) as (s1 & t1 & Hr1 & HK & _).
  rewrite run_cb_snoc, Hr1 in Hr. cbn [bind app] in Hr, HK.
  destruct (K_step stamp n timeout cb int64 t1 s1 Dispatch Hn Ht Hcb) as (s2 & t2 & Hs2 & HK2 & _ & Hst); auto.
  { split; intros ? ? [H|[]]; discriminate. }
  rewrite Hs2 in Hr. cbn in Hr. injection Hr as <- <-.
  destruct (Hst eq_refl) as [H|(s0 & Hm)]; [left; exact H|].
  apply (stop_cond stamp n timeout int64 _ s0 s2 _ _ Hn (k_inv _ _ _ _ _ _ HK2) Hm).
Qed.

(** Whatever is forwarded: every input then had only messages that are not older, or nothing
    queued and was inactive or predicted no earlier message. *)
Theorem C121_never_overtakes n timeout h s tr a i e st b :
  (0 < n)%nat -> 0 <= timeout -> only_periods n cb -> well_indexed n h -> runs n timeout h = Ok (s, tr) ->
  tr = a ++ Forward i e st :: b ->
  exists s0 s1, reach stamp n timeout (history a) (outs a) s0 /\
    dispatch_first stamp timeout s0 = Ok (s1, [(i, e)], true) /\
    (i < n)%nat /\ In e (queued i s0) /\
    forall j, (j < n)%nat ->
      (forall x, In x (queued j s0) -> stamp e <= stamp x) /\
      (queued j s0 = [] -> is_active j s0 = true -> stamp e <= predicted j s0).
Proof.
  intros Hn Ht Hcb HW Hr Hs. destruct (the_run_cb n timeout h s tr Hn Ht Hcb HW Hr) as [HK _].
  destruct (k_fwd _ _ _ _ _ _ HK a i e st b Hs) as (s0 & s1 & _ & HR & Hd & _).
  exists s0, s1. split; auto. split; auto.
  destruct (forward_cond stamp n timeout _ _ _ _ _ _ _ Hn HR Hd) as (Hi & Hhd & Hj). split; auto. split; auto.
  unfold queued. fold (qat i s0). destruct (evs (qat i s0)); [discriminate|]. injection Hhd as ->. now left.
Qed.

(** What an input without queued messages predicts.  Either nothing was forwarded on its output
    yet, and it is inactive; or the prediction is the stamp of the message [x] it forwarded last
    plus the period in force before the callback of [x] was called - what that callback sets
    counts only from the next message on -, and it is inactive only if the newest accepted message
    is at least [timeout] later than the prediction. *)
Theorem C121_prediction n timeout h s tr j :
  (0 < n)%nat -> 0 <= timeout -> only_periods n cb -> well_indexed n h -> runs n timeout h = Ok (s, tr) ->
  (j < n)%nat -> queued j s = [] ->
  (stream j (outs tr) = [] /\ is_active j s = false) \/
  exists a x st b, tr = a ++ Forward j x st :: b /\ stream j (outs b) = [] /\
    predicted j s = stamp x + period_in_force j (history a) /\
    (is_active j s = false -> timeout <= last_in s - predicted j s).
Proof.
  intros Hn Ht Hcb HW Hr Hj He. destruct (the_run_cb n timeout h s tr Hn Ht Hcb HW Hr) as [HK _].
  apply (k_pred _ _ _ _ _ _ HK j Hj He).
Qed.

(** The state reached is one that calls in this order, without callbacks, can lead to: everything
    said of [reach] (C48) holds with the periods in force among all calls. *)
Theorem C121_callbacks_reach n timeout h s tr :
  (0 < n)%nat -> 0 <= timeout -> only_periods n cb -> well_indexed n h -> runs n timeout h = Ok (s, tr) ->
  reach stamp n timeout (history tr) (outs tr) s /\
  forall j, (j < n)%nat -> period (nth j (queues s) queue_init) = period_in_force j (history tr).
Proof.
  intros Hn Ht Hcb HW Hr. destruct (the_run_cb n timeout h s tr Hn Ht Hcb HW Hr) as [[_ K2 _ _ _] _].
  split; auto. intros j Hj. apply (proj1 (reach_predicts stamp n timeout _ _ _ Hn K2 j Hj)).
Qed.
End Props.

(** ** Non-vacuity: the callback sets the period of input 1 to ten for each message that is the
    last one waiting there. *)
Definition ex_cb (o : list (nat * Z)) (st : list status) : list (op Z) :=
  match last o (0%nat, 0), st with
  | (1%nat, _), [_; x] => if Nat.eqb (st_size x) 1 then [SetPeriod 1 10] else []
  | _, _ => []
  end.
Definition cb_h : list (op Z) :=
  [Add 0 12; Add 1 5; Add 1 10; Dispatch; Add 1 20; Add 0 25; Dispatch; Add 0 35; Dispatch].
Example C121_nonvacuous :
  only_periods 2 ex_cb /\ well_indexed 2 cb_h /\
  exists s tr, run_cb ms 15 ex_cb (init 2) [] cb_h = Ok (s, tr) /\
    outs tr = [(1%nat, 5); (1%nat, 10); (0%nat, 12); (1%nat, 20); (0%nat, 25)] /\
    history tr = [Add 0 12; Add 1 5; Add 1 10; Dispatch; SetPeriod 1 10; Add 1 20; Add 0 25; Dispatch; SetPeriod 1 10;
                  Add 0 35; Dispatch] /\
    queued 0 s = [35] /\ is_active 1 s = true /\ predicted 1 s = 30.
Proof.
  split; [|split].
  - intros o st x. unfold ex_cb. destruct (last o (0%nat, 0)) as [[|[|k]] z]; try (intros []).
    destruct st as [|a [|b [|c l]]]; try (intros []). destruct (Nat.eqb (st_size b) 1); [|intros []].
    intros [<-|[]]. exists 1%nat, 10. split; auto.
  - split; intros i e H; cbn in H; repeat (destruct H as [H|H]; [inversion H; lia|]); destruct H.
  - eexists _, _. split; [vm_compute; reflexivity|]. repeat split.
Qed.
(** the period set by the callback of 10 does not count for the prediction made with 10: right
    after the first dispatch input 1, with period ten, predicts 10 *)
Example C121_period_counts_from_the_next_message :
  exists s tr, run_cb ms 15 ex_cb (init 2) [] [Add 0 12; Add 1 10; Dispatch] = Ok (s, tr) /\
    period_in_force 1 (history tr) = 10 /\ queued 1 s = [] /\ predicted 1 s = 10.
Proof. eexists _, _. split; [vm_compute; reflexivity|]. repeat split. Qed.
(** callbacks that add or dispatch *)
Example C121_deadlock_nonvacuous :
  locks_first (fun (_ : list (nat * Z)) _ => [Dispatch]) /\
  locks_first (fun (_ : list (nat * Z)) _ => [Add 0 7]) /\
  (exists s o, run ms 15 (init 2) [Add 0 12; Add 1 10; Dispatch] = Ok (s, o) /\ o <> []) /\
  run_cb ms 15 (fun _ _ => [Dispatch]) (init 2) [] [Add 0 12; Add 1 10; Dispatch] = Err Deadlock.
Proof.
  split; [intros o st; eexists _, _; split; [reflexivity|auto]|].
  split; [intros o st; eexists _, _; split; [reflexivity|right; eauto]|].
  split; [|vm_compute; reflexivity]. eexists _, _. split; [vm_compute; reflexivity|discriminate].
Qed.

Print Assumptions C121_callbacks_never_fail.
Print Assumptions C121_locking_in_a_callback_deadlocks.
Print Assumptions C121_no_calls_no_difference.
Print Assumptions C121_one_callback_per_message.
Print Assumptions C121_status_seen_by_a_callback.
Print Assumptions C121_ordered.
Print Assumptions C121_accounting.
Print Assumptions C121_newest_input.
Print Assumptions C121_dispatch_maximal.
Print Assumptions C121_never_overtakes.
Print Assumptions C121_prediction.
Print Assumptions C121_callbacks_reach.
