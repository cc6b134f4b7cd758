(** C118: one event used by several threads. *)
From Coq Require Import List Arith Lia Bool.
From Verif Require Import Base EventThr_Model EventThr_Spec EventThr_Proofs.
Import ListNotations.

Section Props.
Context {V : Type}.

(** MessageEvent<M const>, or an event that demands no copies: any number of threads may call getMessage at any time.  All calls
    return the message, nothing is written, there is no data race *)
Theorem C118_const_events_may_be_shared const need msg d (h : list V) v calls sched : const = true \/ need = false -> nth_error h msg = Some v ->
  let s := exec const need msg d (start h calls) sched in
  Forall (fun x => x = (msg, v)) (results s) /\ mem s = h /\ ~ racing s.
Proof.
  intros Hc Hm s. assert (const || negb need = true) as Hn by (destruct Hc as [-> | ->]; auto using orb_true_r).
  destruct (quiet_exec const need msg d v Hn h sched _ Hm (quiet_start msg v h calls)) as (A & B & C). fold s in A, B, C. split; [|split; auto].
  - apply results_forall. intros t th E. apply (C _ _ E).
  - intros R. apply racing_busy in R as (t1 & t2 & _ & (th & E & N) & _). apply N. apply (C _ _ E).
Qed.
(** Any event, if no two calls overlap: all calls of all threads return the same object, with the content of the message, and there is no race.
    Missing: overlapping calls *)
Theorem C118_calls_one_at_a_time_partial const need msg d (h : list V) v calls sched : nth_error h msg = Some v ->
  one_at_a_time const need msg d (start h calls) sched ->
  let s := exec const need msg d (start h calls) sched in
  (exists a, Forall (fun x => x = (a, v)) (results s)) /\ nth_error (mem s) msg = Some v /\ ~ racing s.
Proof.
  intros Hm A s. assert (~ racing s) as NR.
  { intros R. apply racing_busy in R as (t1 & t2 & N & B1 & B2). apply N. eapply (serial_busy const need msg d sched (start h calls)); eauto. intros t t' B. now apply start_busy in B. }
  destruct (const || negb need) eqn:Hc.
  - destruct (quiet_exec const need msg d v Hc h sched _ Hm (quiet_start msg v h calls)) as (Q1 & Q2 & Q3). fold s in Q1, Q2, Q3. split; [|split; [now rewrite Q1|auto]].
    exists msg. apply results_forall. intros t th E. apply (Q3 _ _ E).
  - destruct (orderly_results msg v s) as [R1 R2]; auto. apply orderly_exec; auto. now apply orderly_start.
Qed.
(** All schedules, all events: a thread that has returned from its calls has one result for each; one that has not always gets on,
    needing at most six steps for a call: no thread waits for another *)
Theorem C118_every_call_returns const need msg d (h : list V) calls sched t th n : msg < length h ->
  let s := exec const need msg d (start h calls) sched in
  nth_error (threads s) t = Some th -> nth_error calls t = Some n ->
  (~ busy s t -> length (got th) + left th = n) /\
  (forall others, length (filter (Nat.eqb t) others) >= 6 * n -> forall th', nth_error (threads (exec const need msg d s others)) t = Some th' -> length (got th') = n).
Proof.
  intros Hm s E En. assert (valid msg calls s) as W by (apply valid_exec, valid_start; auto). split.
  - intros NB. pose proof W as (_ & _ & C). destruct (C _ _ E) as [_ C2]. assert (at_ th = Idle) as I. { destruct (at_ th) eqn:Ea; auto; exfalso; apply NB; exists th; split; auto; congruence. }
    rewrite I in C2. cbn in C2. rewrite En in C2. injection C2 as ->. lia.
  - intros others Ho th' E'. assert (todo th <= 6 * n) as T.
    { pose proof W as (_ & _ & C). destruct (C _ _ E) as [_ C2]. rewrite En in C2. injection C2 as ->. unfold todo. destruct (at_ th); cbn; lia. }
    assert (valid msg calls (exec const need msg d s others) /\ todo th' = 0) as [W' Z].
    { split; [now apply valid_exec|]. eapply (finishes const need msg d calls t others s th); eauto. lia. }
    pose proof W' as (_ & _ & C). destruct (C _ _ E') as [_ C2]. rewrite En in C2. injection C2 as ->. unfold todo in Z. destruct (at_ th'); cbn in *; lia.
Qed.
(** A MessageEvent<M> that demands copies, used by two threads at the same time: a call may return a message with the content of an empty one, *)
Theorem C118_incomplete_message_refuted (h : list V) d v msg : nth_error h msg = Some v ->
  exists sched, let s := exec false true msg d (start h [1; 1]) sched in results s = [(length h, d)].
Proof.
  intros H. exists [0; 0; 0; 0; 1; 1; 1]. cbn. rewrite nth_error_app2, Nat.sub_diag by lia. reflexivity.
Qed.
(** the threads may get different copies, *)
Theorem C118_two_copies_refuted (h : list V) d v msg : nth_error h msg = Some v ->
  exists sched a b, let s := exec false true msg d (start h [2; 1]) sched in a <> b /\ results s = [(a, v); (b, v); (b, v)].
Proof.
  intros H. assert (msg < length h) as L by (apply nth_error_Some; congruence).
  exists [0; 0; 1; 1; 0; 0; 0; 0; 1; 1; 1; 1; 0; 0; 0], (length h), (S (length h)). split; [lia|].
  assert (forall (x y : V), upd (length h) x (h ++ [y]) = h ++ [x]) as U1 by (intros; apply CopyFail_Proofs.upd_last).
  assert (forall (x y z : V), upd (S (length h)) x ((h ++ [y]) ++ [z]) = (h ++ [y]) ++ [x]) as U2.
  { intros x y z. replace (S (length h)) with (length (h ++ [y])) by (rewrite app_length; cbn; lia). apply CopyFail_Proofs.upd_last. }
  assert (forall (x : V), nth_error (h ++ [x]) msg = Some v) as M1 by (intros; rewrite nth_error_app1; auto).
  assert (forall (x y : V), nth_error ((h ++ [x]) ++ [y]) msg = Some v) as M2 by (intros; rewrite !nth_error_app1; rewrite ?app_length; auto; lia).
  assert (forall (x : V), nth_error (h ++ [x]) (length h) = Some x) as N1 by (intros; now rewrite nth_error_app2, Nat.sub_diag by lia).
  assert (forall (x y : V), nth_error ((h ++ [x]) ++ [y]) (S (length h)) = Some y) as N2.
  { intros x y. replace (S (length h)) with (length (h ++ [x])) by (rewrite app_length; cbn; lia). now rewrite nth_error_app2, Nat.sub_diag by lia. }
  assert (length (h ++ [v]) = S (length h)) as Ln by (rewrite app_length; cbn; lia).
  cbn. rewrite M1, U1. cbn. rewrite M2, Ln, U2. cbn -[nth_error]. unfold give. rewrite N1. specialize (N2 v v). revert N2. generalize (S (length h)), ((h ++ [v]) ++ [v]). intros q m N2. cbn. unfold give. rewrite N2. reflexivity.
Qed.
(** and there is a data race *)
Theorem C118_data_race_refuted (h : list V) d msg : exists sched, racing (exec false true msg d (start h [1; 1]) sched).
Proof.
  exists [0; 0; 0; 1]. exists 0, 1. eexists. eexists. exists true, false. cbn. repeat split; auto.
Qed.
End Props.

(** Two threads, one after the other *)
Example C118_example : one_at_a_time false true 0 0 (start [7] [2; 1]) [0; 0; 0; 0; 0; 0; 1; 1; 1; 0; 0; 0] /\
  results (exec false true 0 0 (start [7] [2; 1]) [0; 0; 0; 0; 0; 0; 1; 1; 1; 0; 0; 0]) = [(1, 7); (1, 7); (1, 7)].
Proof.
  split; [|reflexivity]. cbn. repeat split; intros [|[|t']] (th & E & B); cbn in E; try (destruct t'; discriminate); auto; injection E as <-; exfalso; now apply B.
Qed.

Print Assumptions C118_const_events_may_be_shared.
Print Assumptions C118_calls_one_at_a_time_partial.
Print Assumptions C118_every_call_returns.
Print Assumptions C118_incomplete_message_refuted.
Print Assumptions C118_two_copies_refuted.
Print Assumptions C118_data_race_refuted.
