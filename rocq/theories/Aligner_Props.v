(** Properties C44-C48: InputAligner.  [run stamp timeout (init n) h] is an aligner with
    [n] inputs after the history [h] of additions, setInputPeriod and dispatchMessages
    calls: its state and the (output index, message) pairs forwarded, in order.  Stamps
    are below int64 max (header stamps are below 2^61 + 2^33, RclTime). *)
From Coq Require Import List Arith ZArith Lia Bool Sorted Permutation.
From Verif Require Import Base RclTime Trace Aligner_Model Aligner_Spec Aligner_Proofs.
Import ListNotations.
Local Open Scope Z_scope.

Section Props.
Context {E : Type} (stamp : E -> Z).
Hypothesis int64 : forall e, stamp e < int64_max.
Notation run := (run stamp).
Notation step := (step stamp).

(** Reading a state. *)
Definition queued (i : nat) (s : state E) : list E := evs (nth i (queues s) queue_init).
Definition is_active (i : nat) (s : state E) : bool := active (nth i (queues s) queue_init).
Definition predicted (i : nat) (s : state E) : Z := next_ts (nth i (queues s) queue_init).

Lemma the_run n timeout h s outs :
  (0 < n)%nat -> 0 <= timeout -> well_indexed n h -> run timeout (init n) h = Ok (s, outs) ->
  Inv stamp n (after stamp n timeout) h s outs /\ reach stamp n timeout h outs s /\ Forwarded stamp n timeout outs.
Proof.
  intros Hn Ht HW Hr. destruct (run_inv stamp n timeout int64 h Hn Ht HW) as (s' & o' & Hr' & HI & HR & HF).
  rewrite Hr in Hr'. injection Hr' as <- <-. auto.
Qed.

(** C44: everything forwarded, on all outputs together, is in time order. *)
Theorem C44_aligner_ordered n timeout h s outs :
  (0 < n)%nat -> 0 <= timeout -> well_indexed n h -> run timeout (init n) h = Ok (s, outs) ->
  nondecreasing (fun x => stamp (snd x)) outs.
Proof. intros Hn Ht HW Hr. destruct (the_run n timeout h s outs Hn Ht HW Hr) as [(_ & H & _) _]. exact H. Qed.

(** C44: messages of one input with equal stamps keep their order. *)
Theorem C44_aligner_ties_fifo n timeout h s outs i t :
  (0 < n)%nat -> 0 <= timeout -> well_indexed n h -> run timeout (init n) h = Ok (s, outs) ->
  subseq (filter (fun e => stamp e =? t) (stream i outs ++ queued i s))
         (filter (fun e => stamp e =? t) (stream i (adds h))).
Proof.
  intros Hn Ht HW Hr. destruct (the_run n timeout h s outs Hn Ht HW Hr) as [(_ & _ & _ & _ & _ & _ & HQ) _].
  apply (qi_ties _ _ _ _ _ _ _ (HQ i)).
Qed.

(** C45: per input, what was added is what was forwarded on the same output, plus what
    is queued, plus what was dropped; the counters agree; a message is dropped only on
    arrival and only if stamped before the epoch or before something already forwarded. *)
Theorem C45_aligner_accounting n timeout h s outs i :
  (0 < n)%nat -> 0 <= timeout -> well_indexed n h -> run timeout (init n) h = Ok (s, outs) -> (i < n)%nat ->
  exists lost st,
    Permutation (stream i (adds h)) (stream i outs ++ queued i s ++ lost) /\
    get_queue_status s i = Some st /\
    st_size st = length (queued i s) /\ st_processed st = length (stream i outs) /\ st_dropped st = length lost /\
    (forall e, In e lost ->
       exists h1 h2 s1 o1, h = h1 ++ Add i e :: h2 /\ run timeout (init n) h1 = Ok (s1, o1) /\
         (stamp e < 0 \/ exists x, In x o1 /\ stamp e < stamp (snd x))).
Proof.
  intros Hn Ht HW Hr Hi. destruct (the_run n timeout h s outs Hn Ht HW Hr) as [(HL & _ & _ & _ & _ & _ & HQ) _].
  destruct (qi_acct _ _ _ _ _ _ _ (HQ i)) as (D & H1 & H2 & H3 & H4).
  exists D, (get_status (qat i s)). split; auto. split; [|cbn; auto].
  unfold get_queue_status. now rewrite (nth_error_nth' (queues s) queue_init) by lia.
Qed.

(** C45: nothing arriving in time is dropped. *)
Theorem C45_aligner_accepts_in_time n timeout h s outs i e s' o :
  (0 < n)%nat -> 0 <= timeout -> well_indexed n (h ++ [Add i e]) -> run timeout (init n) h = Ok (s, outs) ->
  0 <= stamp e -> (forall x, In x outs -> stamp (snd x) <= stamp e) ->
  step timeout s (Add i e) = Ok (s', o) -> Permutation (queued i s') (e :: queued i s).
Proof.
  intros Hn Ht [HW1 HW2] Hr He Hx Hs.
  assert (HW : well_indexed n h) by (split; intros; [eapply HW1|eapply HW2]; apply in_or_app; eauto).
  assert (Hi : (i < n)%nat) by (eapply HW1; apply in_or_app; cbn; eauto).
  destruct (the_run n timeout h s outs Hn Ht HW Hr) as [(HL & _ & _ & HLa & _) _].
  unfold Aligner_Model.step, add in Hs. rewrite (nth_error_nth' (queues s) queue_init) in Hs by lia.
  destruct (Z.ltb_spec (stamp e) (last_out s)) as [Hlt|Hge]; cbn in Hs; injection Hs as <- <-.
  - exfalso. destruct HLa as [|(x & Hin & Hk)]; [lia|]. apply Hx in Hin. unfold key in Hk. lia.
  - unfold queued. cbn [queues]. rewrite nth_upd_eq by lia. cbn. apply Permutation_sym, ins_perm.
Qed.

(** C46: an input that is active or has something queued, with non-negative periods: a
    message at least one period (of any period ever set) after all earlier messages of
    its input is not dropped. *)
Theorem C46_aligner_no_drop n timeout h s outs i e s' o :
  (0 < n)%nat -> 0 <= timeout -> well_indexed n (h ++ [Add i e]) -> run timeout (init n) h = Ok (s, outs) ->
  is_active i s = true \/ queued i s <> [] ->
  (forall p, a_period h i p -> 0 <= p) ->
  (forall x p, In (i, x) (adds h) -> a_period h i p -> stamp x + p <= stamp e) ->
  step timeout s (Add i e) = Ok (s', o) ->
  Permutation (queued i s') (e :: queued i s).
Proof.
  intros Hn Ht [HW1 HW2] Hr Hact Hpos Hgap Hs.
  assert (HW : well_indexed n h) by (split; intros; [eapply HW1|eapply HW2]; apply in_or_app; eauto).
  assert (Hi : (i < n)%nat) by (eapply HW1; apply in_or_app; cbn; eauto).
  destruct (the_run n timeout h s outs Hn Ht HW Hr) as [(HL & _ & _ & HLa & _ & _ & HQ) _].
  assert (Hge : last_out s <= stamp e).
  { destruct (HQ i) as [Q1 Q2 Q3 Q4 (D & Q5 & _) Q6]. unfold is_active, queued in Hact. fold (qat i s) in Hact.
    destruct (evs (qat i s)) as [|x l] eqn:Hev.
    - destruct Hact as [Ha|]; [|congruence]. destruct (Q4 eq_refl Ha) as (x & p & Hx & Hp & Hnx & Hle).
      specialize (Hle Hpos). specialize (Hgap x p Hx Hp). lia.
    - assert (Hx : In (i, x) (adds h)).
      { apply stream_in. eapply Permutation_in; [apply Permutation_sym; exact Q5|]. apply in_or_app; right; cbn; auto. }
      specialize (Hgap x 0 Hx (or_introl eq_refl)). specialize (Q2 x (or_introl eq_refl)). lia. }
  unfold Aligner_Model.step, add in Hs. rewrite (nth_error_nth' (queues s) queue_init) in Hs by lia.
  destruct (Z.ltb_spec (stamp e) (last_out s)) as [Hlt|_]; [lia|]. cbn in Hs; injection Hs as <- <-.
  unfold queued. cbn [queues]. rewrite nth_upd_eq by lia. cbn. apply Permutation_sym, ins_perm.
Qed.

(** C47: no history makes an operation fail or loop. *)
Theorem C47_aligner_total n timeout h :
  (0 < n)%nat -> 0 <= timeout -> well_indexed n h ->
  exists s outs, run timeout (init n) h = Ok (s, outs).
Proof.
  intros Hn Ht HW. destruct (run_inv stamp n timeout int64 h Hn Ht HW) as (s' & o' & Hr' & _). eauto.
Qed.

(** C47: dispatchMessages stops only when nothing is queued or everything queued must
    wait for an active input without messages whose prediction is not later and which has
    not timed out. *)
Theorem C47_aligner_dispatch_maximal n timeout h s outs :
  (0 < n)%nat -> 0 <= timeout -> well_indexed n h -> run timeout (init n) h = Ok (s, outs) ->
  exists s' o, step timeout s Dispatch = Ok (s', o) /\
    ((forall j, queued j s' = []) \/
     exists j, (j < n)%nat /\ queued j s' = [] /\ is_active j s' = true /\
       last_in s' - predicted j s' < timeout /\
       forall k x, In x (queued k s') -> predicted j s' <= stamp x).
Proof.
  intros Hn Ht HW Hr. destruct (the_run n timeout h s outs Hn Ht HW Hr) as (HI & HR & HF).
  destruct (dispatch_inv stamp n timeout _ h s outs Hn Ht HI HR HF) as (s' & o & Hd & HI' & _ & _ & Hst).
  exists s', o. split; auto. destruct Hst as [Hst|(s0 & Hm)]; [left; auto|].
  apply (stop_cond stamp n timeout int64 _ s0 s' _ _ Hn HI' Hm).
Qed.

(** C47: the time the timeout is measured against is the newest stamp accepted so far. *)
Theorem C47_aligner_newest_input n timeout h s outs :
  (0 < n)%nat -> 0 <= timeout -> well_indexed n h -> run timeout (init n) h = Ok (s, outs) ->
  (last_in s = 0 \/ exists x, In x (adds h) /\ stamp (snd x) = last_in s) /\
  (forall x, In x outs -> stamp (snd x) <= last_in s) /\
  (forall i x, In x (queued i s) -> stamp x <= last_in s).
Proof.
  intros Hn Ht HW Hr. destruct (the_run n timeout h s outs Hn Ht HW Hr) as [(_ & _ & _ & _ & _ & (H1 & H2 & H3) & _) _].
  split; [exact H3|]. split; [exact H2|exact H1].
Qed.

(** C48: whatever is forwarded on output [i] after [o1] was, in the state [s0] in which it
    was forwarded, queued at input [i], and every input then had only messages that are
    not older, or nothing queued and was inactive or predicted no earlier message. *)
Theorem C48_aligner_never_overtakes n timeout h s outs o1 i e o2 :
  (0 < n)%nat -> 0 <= timeout -> well_indexed n h -> run timeout (init n) h = Ok (s, outs) ->
  outs = o1 ++ (i, e) :: o2 ->
  exists h0 s0 s1 b, reach stamp n timeout h0 o1 s0 /\ dispatch_first stamp timeout s0 = Ok (s1, [(i, e)], b) /\
    (i < n)%nat /\ In e (queued i s0) /\
    forall j, (j < n)%nat ->
      (forall x, In x (queued j s0) -> stamp e <= stamp x) /\
      (queued j s0 = [] -> is_active j s0 = true -> stamp e <= predicted j s0).
Proof.
  intros Hn Ht HW Hr Hin. destruct (the_run n timeout h s outs Hn Ht HW Hr) as (_ & _ & HF).
  destruct (HF o1 (i, e) o2 Hin) as (h0 & s0 & s1 & b & HR & Hd). exists h0, s0, s1, b. split; auto. split; auto.
  destruct (forward_cond stamp n timeout h0 o1 s0 s1 i e b Hn HR Hd) as (Hi & Hhd & Hj). split; auto. split; auto.
  unfold queued. fold (qat i s0). destruct (evs (qat i s0)); [discriminate|]. injection Hhd as ->. cbn; auto.
Qed.

(** C48: what an input without queued messages predicts, and when it is inactive.  Either
    nothing was forwarded on its output yet, and it is inactive; or the prediction is the
    stamp of the message [x] it forwarded last plus the period in force when that was
    forwarded, and it is inactive only if the newest accepted message is at least
    [timeout] later than the prediction. *)
Theorem C48_aligner_prediction n timeout h outs s j :
  (0 < n)%nat -> reach stamp n timeout h outs s -> (j < n)%nat -> queued j s = [] ->
  (stream j outs = [] /\ is_active j s = false) \/
  exists h1 h2 o1 o2 x s1 s2 b,
    h = h1 ++ h2 /\ outs = o1 ++ (j, x) :: o2 /\ stream j o2 = [] /\
    reach stamp n timeout h1 o1 s1 /\ dispatch_first stamp timeout s1 = Ok (s2, [(j, x)], b) /\
    predicted j s = stamp x + period_in_force j h1 /\
    (is_active j s = false -> timeout <= last_in s - predicted j s).
Proof.
  intros Hn HR Hj He. destruct (reach_predicts stamp n timeout h outs s Hn HR j Hj) as [_ H].
  destruct (H He) as [H'|(x & p & (h1 & h2 & o1 & o2 & s1 & s2 & b & H1 & H2 & H3 & H4 & H5 & H6) & H7 & H8)]; [left; exact H'|].
  right. exists h1, h2, o1, o2, x, s1, s2, b. subst p. auto 10.
Qed.

(** C48: the same for the state after a history. *)
Theorem C48_aligner_run_reaches n timeout h s outs :
  (0 < n)%nat -> 0 <= timeout -> well_indexed n h -> run timeout (init n) h = Ok (s, outs) ->
  reach stamp n timeout h outs s.
Proof. intros Hn Ht HW Hr. apply (the_run n timeout h s outs Hn Ht HW Hr). Qed.
End Props.

(** A timeout below minus the largest time makes the loop endless once everything is
    forwarded: C47 needs its premise. *)
Theorem C47_aligner_negative_timeout_diverges :
  exists s : state Z,
    run (fun z => z) (- int64_max) (init 2) [Add 0 5] = Ok (s, []) /\
    forall fuel, dispatch_loop (fun z => z) (- int64_max) fuel s = Err OutOfFuel.
Proof.
  eexists. split; [reflexivity|].
  intros fuel. destruct fuel as [|[|fuel]]; [reflexivity|reflexivity|].
  assert (H : forall f, dispatch_loop (fun z : Z => z) (- int64_max) f
                (mkState [mkQueue [] 5 0 false 1 0; queue_init] 5 5) = Err OutOfFuel).
  { induction f as [|f IH]; [reflexivity|].
    cbn [dispatch_loop]. replace (dispatch_first _ _ _) with
      (@Ok (state Z * list (nat * Z) * bool)
        (mkState [mkQueue [] 5 0 false 1 0; queue_init] 5 5, [], true)) by reflexivity.
    cbn [bind]. rewrite IH. reflexivity. }
  cbn [dispatch_loop].
  replace (dispatch_first _ _ _) with
      (@Ok (state Z * list (nat * Z) * bool)
        (mkState [mkQueue [] 5 0 true 1 0; queue_init] 5 5, [(0%nat, 5)], true)) by reflexivity.
  cbn [bind].
  replace (dispatch_first _ _ _) with
      (@Ok (state Z * list (nat * Z) * bool)
        (mkState [mkQueue [] 5 0 false 1 0; queue_init] 5 5, [], true)) by reflexivity.
  cbn [bind]. rewrite H. reflexivity.
Qed.

(** ** Non-vacuity: two inputs, a period, a dropped message, a wait and a timeout. *)
(** Stamps as the theorems assume them: [ms_int64] *)
Definition ms (z : Z) : Z := Z.min z (int64_max - 1).
Example ms_int64 : forall z, ms z < int64_max.
Proof. intros z. unfold ms. lia. Qed.
Definition ex_h : list (op Z) :=
  [SetPeriod 1 10; Add 0 12; Add 1 10; Dispatch; Add 0 25; Add 1 20; Add 1 5; Dispatch; Add 0 40; Dispatch].
Example C44_C48_nonvacuous :
  well_indexed 2 ex_h /\
  run ms 15 (init 2) ex_h =
    Ok (mkState [mkQueue [40] 40 0 true 2 0; mkQueue [] 30 10 true 2 1] 40 25,
        [(1%nat, 10); (0%nat, 12); (1%nat, 20); (0%nat, 25)]) /\
  run ms 15 (init 2) (ex_h ++ [Add 0 50; Dispatch]) =
    Ok (mkState [mkQueue [] 50 0 true 4 0; mkQueue [] 30 10 false 2 1] 50 50,
        [(1%nat, 10); (0%nat, 12); (1%nat, 20); (0%nat, 25); (0%nat, 40); (0%nat, 50)]).
Proof.
  split; [split; intros i e H; cbn in H; repeat (destruct H as [H|H]; [inversion H; lia|]); destruct H|].
  split; reflexivity.
Qed.
(** input 1 waits with prediction 30 = 20 + 10, then times out at 50 *)
Example C48_nonvacuous :
  exists s outs, run ms 15 (init 2) ex_h = Ok (s, outs) /\
    queued 1 s = [] /\ is_active 1 s = true /\ predicted 1 s = 30 /\ period_in_force 1 ex_h = 10.
Proof. eexists _, _. split; [apply C44_C48_nonvacuous|]. repeat split. Qed.
(** the premises of C46 hold here: input 1 is active, 30 = 20 + period *)
Example C46_nonvacuous :
  exists s outs, run ms 15 (init 2) ex_h = Ok (s, outs) /\ is_active 1 s = true /\
    (forall p, a_period ex_h 1 p -> 0 <= p) /\
    (forall x p, In (1%nat, x) (adds ex_h) -> a_period ex_h 1 p -> x + p <= 30) /\
    (forall x p, In (1%nat, x) (adds ex_h) -> a_period ex_h 1 p -> x <= 20).
Proof.
  assert (HP : forall p, a_period ex_h 1 p -> p = 0 \/ p = 10).
  { intros p [->|H]; auto. cbn in H. repeat (destruct H as [H|H]; [inversion H; auto|]). destruct H. }
  assert (HX : forall x, In (1%nat, x) (adds ex_h) -> x <= 20).
  { intros x H. cbn in H. repeat (destruct H as [H|H]; [inversion H; lia|]). destruct H. }
  eexists _, _. split; [apply C44_C48_nonvacuous|]. split; [reflexivity|]. split; [|split].
  - intros p H. apply HP in H. lia.
  - intros x p Hx Hp. apply HX in Hx. apply HP in Hp. lia.
  - intros x p Hx _. now apply HX.
Qed.

Print Assumptions C44_aligner_ordered.
Print Assumptions C44_aligner_ties_fifo.
Print Assumptions C45_aligner_accounting.
Print Assumptions C45_aligner_accepts_in_time.
Print Assumptions C46_aligner_no_drop.
Print Assumptions C47_aligner_total.
Print Assumptions C47_aligner_dispatch_maximal.
Print Assumptions C47_aligner_newest_input.
Print Assumptions C47_aligner_negative_timeout_diverges.
Print Assumptions C48_aligner_never_overtakes.
Print Assumptions C48_aligner_prediction.
Print Assumptions C48_aligner_run_reaches.
