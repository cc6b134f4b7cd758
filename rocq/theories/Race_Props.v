(** Properties C82 (data races) and C83 (deadlocks). *)
From Coq Require Import List Arith Bool Lia.
From Verif Require Import Base Race_Model Race_Spec Race_Proofs.
Import ListNotations.

(** C82: adding messages to any filter, dispatching, querying, registering callbacks and disconnecting,
    in any number of threads and in any network without a cycle.  Missing: the setters and
    InputAligner::getQueueStatus, for which it is false (below). *)
Theorem C82_network_race_free_partial : forall n depth, acyclic n -> race_free (methods depth n).
Proof. intros n depth A. apply (discipline guards rank). now apply ok_methods. Qed.

(** C83: in the same executions the threads can always finish *)
Theorem C83_network_deadlock_free : forall n depth, acyclic n -> deadlock_free (methods depth n).
Proof. intros n depth A. apply (discipline_deadlock guards rank). now apply ok_methods. Qed.

(** the classes that have no setter, alone: all their methods *)
Lemma class_race_free k o : race_free (add_of k o [] :: others k o []).
Proof.
  apply (discipline guards rank). assert (B : before [] o) by (intros x []). cbn [forallb].
  rewrite (ok_add o [] (fun _ _ => eq_refl) k [] B). exact (ok_others o [] (fun _ _ => eq_refl) k [] B).
Qed.
Theorem C82_time_sequencer_race_free : forall o, race_free [seq_add o; register o; seq_dispatch o []].
Proof. exact (class_race_free TimeSequencer). Qed.
Theorem C82_exact_time_race_free : forall o, race_free [exact_add o []; register o; exact_register_drop o].
Proof. exact (class_race_free ExactTime). Qed.
Theorem C82_approximate_epsilon_time_race_free : forall o, race_free [eps_add o []; register o].
Proof. exact (class_race_free ApproximateEpsilonTime). Qed.

(** ** C82 is false of the setters: they do not take the mutex *)
Lemma one_call ms c t : In c ms -> trace c t -> calls ms t.
Proof. intros H T. rewrite <- (app_nil_r t). econstructor; eauto. constructor. Qed.
Lemma T_one cs c t : In c cs -> trace c t -> trace (Any cs) t.
Proof. intros H T. rewrite <- (app_nil_r t). econstructor; eauto. constructor. Qed.
Lemma racy_pair ms m (c d : code) v w r :
  In c ms -> In d ms -> trace c [Acq m; if r : bool then Rd v else Wr v; Rel m] -> trace d [if w : bool then Wr v else Rd v] ->
  (negb r || w) = true -> ~ race_free ms.
Proof.
  intros Hc Hd Tc Td W R. apply (R [[Acq m; if r then Rd v else Wr v; Rel m]; [if w then Wr v else Rd v]] [0]).
  - constructor; [exact (one_call ms c _ Hc Tc)|]. constructor; [exact (one_call ms d _ Hd Td)|constructor].
  - exists 0, 1, (if r then Rd v else Wr v), (if w then Wr v else Rd v), [Rel m], [], v, (negb r), w. cbn. split; [lia|]. split; auto. split; auto. split; [destruct r; auto|]. split; [destruct w; auto|]. exact W.
Qed.
Lemma T_lock1 m c i : trace c [i] -> trace (Lock m c) [Acq m; i; Rel m].
Proof. apply T_lock. Qed.
Theorem C82_cache_set_size_refuted : forall o, ~ race_free [cache_add o []; cache_set_size o].
Proof.
  intros o. apply (racy_pair _ (o, Kobj) (cache_add o []) (cache_set_size o) (o, CacheSize) true true); cbn; auto; [|constructor].
  eapply T_one; [left; reflexivity|]. apply T_lock1. eapply T_one; [right; left; reflexivity|]. constructor.
Qed.
Theorem C82_approximate_time_setters_refuted : forall o,
  ~ race_free [approx_add o []; approx_set_penalty o] /\ ~ race_free [approx_add o []; approx_set_bound o] /\ ~ race_free [approx_add o []; approx_set_max o].
Proof.
  intros o. split; [|split].
  - apply (racy_pair _ (o, Kobj) (approx_add o []) (approx_set_penalty o) (o, AgePenalty) true true); cbn; auto; [|constructor]. apply T_lock1. apply (T_one _ (Reads (o, AgePenalty))); cbn; auto 10. constructor.
  - apply (racy_pair _ (o, Kobj) (approx_add o []) (approx_set_bound o) (o, LowerBounds) true true); cbn; auto; [|constructor]. apply T_lock1. apply (T_one _ (Reads (o, LowerBounds))); cbn; auto 10. constructor.
  - apply (racy_pair _ (o, Kobj) (approx_add o []) (approx_set_max o) (o, MaxInterval) true true); cbn; auto; [|constructor]. apply T_lock1. apply (T_one _ (Reads (o, MaxInterval))); cbn; auto 10. constructor.
Qed.
Theorem C82_latest_time_setters_refuted : forall o, ~ race_free [latest_add o []; latest_set_config o] /\ ~ race_free [latest_add o []; latest_set_clock o].
Proof.
  intros o. split.
  - apply (racy_pair _ (o, Kobj) (latest_add o []) (latest_set_config o) (o, RateConfigs) true true); cbn; auto; [|constructor]. eapply T_one; [right; left; reflexivity|]. apply T_lock1. apply (T_one _ (Reads (o, RateConfigs))); cbn; auto 10. constructor.
  - apply (racy_pair _ (o, Kobj) (latest_add o []) (latest_set_clock o) (o, RosClock) true true); cbn; auto; [|constructor]. eapply T_one; [right; left; reflexivity|]. apply T_lock1. apply (T_one _ (Reads (o, RosClock))); cbn; auto 10. constructor.
Qed.
Theorem C82_input_aligner_refuted : forall o, ~ race_free [aligner_add o; aligner_set_period o] /\ ~ race_free [aligner_add o; aligner_status o].
Proof.
  intros o. split.
  - apply (racy_pair _ (o, Kobj) (aligner_add o) (aligner_set_period o) (o, EventQueues) true true); cbn; auto; [|constructor]. apply T_lock1. eapply T_one; [left; reflexivity|]. eapply T_one; [left; reflexivity|]. constructor.
  - apply (racy_pair _ (o, Kobj) (aligner_add o) (aligner_status o) (o, EventQueues) false false); cbn; auto; [|constructor]. apply T_lock1. eapply T_one; [left; reflexivity|]. eapply T_one; [right; left; reflexivity|]. constructor.
Qed.

(** ** C83 needs the hypothesis: in a cycle of two filters, each forwarding a message at most once, two
    threads can block each other *)
Definition two_cycle : net := [(PassThrough, [1]); (PassThrough, [0])].
Definition pass_to (a b : nat) : list instr :=
  [Acq (a, Ksig); Rd (a, Callbacks); Acq (b, Ksig); Rd (b, Callbacks); Rel (b, Ksig); Rel (a, Ksig)].
Lemma pass_to_trace a b : trace (pass_add a [pass_add b [Any []]]) (pass_to a b).
Proof.
  apply (T_lock (a, Ksig) _ [Rd (a, Callbacks); Acq (b, Ksig); Rd (b, Callbacks); Rel (b, Ksig)]).
  eapply (T_more _ _ [Rd (a, Callbacks)] [Acq (b, Ksig); Rd (b, Callbacks); Rel (b, Ksig)] ); [left; reflexivity|constructor|].
  eapply T_one; [right; left; reflexivity|]. apply T_lock1. eapply T_one; [left; reflexivity|]. constructor.
Qed.
Lemma two_cycle_calls : Forall (calls (methods 1 two_cycle)) [pass_to 0 1; pass_to 1 0].
Proof.
  constructor; [|constructor; [|constructor]].
  - eapply one_call; [|apply pass_to_trace]. now left.
  - eapply one_call; [|apply pass_to_trace]. cbn. auto.
Qed.
Theorem C83_cycle_refuted : exists n depth, ~ deadlock_free (methods depth n).
Proof.
  exists two_cycle, 1. intros D. destruct (D _ [0; 1; 0; 1] two_cycle_calls) as (more & F). set (s := exec [0; 1; 0; 1] (start [pass_to 0 1; pass_to 1 0])) in *.
  assert (Hs : forall t, step t s = s). { intros [|[|[|t]]]; reflexivity. }
  assert (He : exec more s = s). { clear F. induction more as [|t r IH]; auto. cbn. now rewrite Hs. }
  rewrite He in F. inversion F. discriminate.
Qed.

(** a concrete network: two caches feed an ExactTime synchronizer that feeds another filter; it is
    acyclic; two threads add to the two caches and the second waits for the first's mutexes *)
Definition sample : net := [(Cache, [2]); (Cache, [2]); (ExactTime, [3]); (PassThrough, [])].
Definition sample_add (o : nat) : list instr :=
  [Acq (o, Kobj); Rd (o, CacheSize); Wr (o, Deque); Rel (o, Kobj); Acq (o, Ksig); Rd (o, Callbacks);
   Acq (2, Kobj); Wr (2, Tuples); Acq (2, Ksig); Rd (2, Callbacks); Acq (3, Ksig); Rd (3, Callbacks); Rel (3, Ksig); Rel (2, Ksig); Rel (2, Kobj);
   Rel (o, Ksig)].
Example C83_acyclic : acyclic sample.
Proof. intros o k l o' E H. destruct o as [|[|[|[|[|o]]]]]; cbn in E; try discriminate; injection E as <- <-; cbn in H; intuition lia. Qed.
Lemma sample_trace o : trace (cache_add o [exact_add 2 [pass_add 3 []]]) (sample_add o).
Proof.
  eapply (T_more _ _ [Acq (o, Kobj); Rd (o, CacheSize); Wr (o, Deque); Rel (o, Kobj)]
    [Acq (o, Ksig); Rd (o, Callbacks); Acq (2, Kobj); Wr (2, Tuples); Acq (2, Ksig); Rd (2, Callbacks); Acq (3, Ksig); Rd (3, Callbacks); Rel (3, Ksig); Rel (2, Ksig); Rel (2, Kobj); Rel (o, Ksig)] ); [left; reflexivity| |].
  - apply (T_lock (o, Kobj) _ [Rd (o, CacheSize); Wr (o, Deque)]). eapply (T_more _ _ [Rd (o, CacheSize)] [Wr (o, Deque)] ); [right; left; reflexivity|constructor|].
    eapply T_one; [left; reflexivity|]. eapply T_one; [right; left; reflexivity|]. constructor.
  - eapply T_one; [right; left; reflexivity|]. apply (T_lock (o, Ksig) _ [Rd (o, Callbacks); Acq (2, Kobj); Wr (2, Tuples); Acq (2, Ksig); Rd (2, Callbacks); Acq (3, Ksig); Rd (3, Callbacks); Rel (3, Ksig); Rel (2, Ksig); Rel (2, Kobj)]).
    eapply (T_more _ _ [Rd (o, Callbacks)] [Acq (2, Kobj); Wr (2, Tuples); Acq (2, Ksig); Rd (2, Callbacks); Acq (3, Ksig); Rd (3, Callbacks); Rel (3, Ksig); Rel (2, Ksig); Rel (2, Kobj)] ); [left; reflexivity|constructor|].
    eapply T_one; [right; left; reflexivity|]. eapply T_one; [right; left; reflexivity|].
    apply (T_lock (2, Kobj) _ [Wr (2, Tuples); Acq (2, Ksig); Rd (2, Callbacks); Acq (3, Ksig); Rd (3, Callbacks); Rel (3, Ksig); Rel (2, Ksig)]).
    eapply (T_more _ _ [Wr (2, Tuples)] [Acq (2, Ksig); Rd (2, Callbacks); Acq (3, Ksig); Rd (3, Callbacks); Rel (3, Ksig); Rel (2, Ksig)] ); [left; reflexivity|eapply T_one; [right; left; reflexivity|]; constructor|].
    apply (T_one _ (call 2 [pass_add 3 []])); [cbn; auto 10|]. apply (T_lock (2, Ksig) _ [Rd (2, Callbacks); Acq (3, Ksig); Rd (3, Callbacks); Rel (3, Ksig)]).
    eapply (T_more _ _ [Rd (2, Callbacks)] [Acq (3, Ksig); Rd (3, Callbacks); Rel (3, Ksig)] ); [left; reflexivity|constructor|].
    eapply T_one; [right; left; reflexivity|]. apply T_lock1. eapply T_one; [left; reflexivity|]. constructor.
Qed.
Example C83_example : Forall (calls (methods 2 sample)) [sample_add 0; sample_add 1]
  /\ (let s := exec (repeat 0 9 ++ repeat 1 9) (start [sample_add 0; sample_add 1]) in
      map (@length instr) (rest s) = [7; 10] /\ step 1 s = s).
Proof.
  split; [|split; reflexivity]. constructor; [|constructor; [|constructor]].
  - eapply one_call; [|apply sample_trace]. now left.
  - eapply one_call; [|apply sample_trace]. cbn. auto.
Qed.

Print Assumptions C82_network_race_free_partial.
Print Assumptions C83_network_deadlock_free.
Print Assumptions C82_time_sequencer_race_free.
Print Assumptions C82_exact_time_race_free.
Print Assumptions C82_approximate_epsilon_time_race_free.
Print Assumptions C82_cache_set_size_refuted.
Print Assumptions C82_approximate_time_setters_refuted.
Print Assumptions C82_latest_time_setters_refuted.
Print Assumptions C82_input_aligner_refuted.
Print Assumptions C83_cycle_refuted.
