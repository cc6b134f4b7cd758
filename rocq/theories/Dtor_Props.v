(** C112: filters destroyed while other threads deliver messages to them. *)
From Coq Require Import List Arith Bool Lia.
From Verif Require Import Base Dtor_Model Dtor_Spec Dtor_Proofs.
Import ListNotations.

(** A destructor that disconnects all inputs (and stops the timer, if there is one) is safe while other
    threads emit, and only such a destructor is. *)
Theorem C112_safe_iff_disconnected k up tm dtor : parts dtor ->
  (safe_destructor k up tm dtor <-> (forall i, i < k -> In (Disc i) dtor) /\ (tm = true -> In Cancel dtor)).
Proof.
  intros P. split.
  - intros S. split.
    + intros i Hi. destruct (in_dec (fun a b : op => ltac:(repeat decide equality)) (Disc i) dtor) as [|N]; auto. exfalso.
      set (s0 := start k tm (program [] (destroyer [] dtor []) [[Emit (up i)]])).
      destruct (run_parts k up dtor s0 [End] (fun _ => eq_refl) eq_refl eq_refl P) as (n & s1 & E & A1 & O1 & T1 & C1 & _).
      apply (S [] [] [] [[Emit (up i)]] (repeat 0 n ++ [0; 1; 1; 1])); [easy|easy|constructor|constructor; [intros o [<-|[]]; eauto|constructor]|].
      fold s0. rewrite exec_app, E. cbn [bind]. cbn in T1. assert (Ci : conn s1 i = true) by (apply C1; auto; now apply Nat.ltb_lt).
      destruct s1 as [al co ti ow th]; cbn in *. subst al th. cbn -[registered]. rewrite O1. cbn -[registered].
      match goal with |- context [registered k up ?s (up i)] => destruct (registered k up s (up i)) as [|x r] eqn:R end; [|reflexivity].
      exfalso. assert (X : In i []); [|destruct X]. rewrite <- R. unfold registered. apply filter_In. split; [apply in_seq; lia|]. cbn. now rewrite Ci, Nat.eqb_refl.
    + intros ->. destruct (in_dec (fun a b : op => ltac:(repeat decide equality)) Cancel dtor) as [|N]; auto. exfalso.
      set (s0 := start k true (program [] (destroyer [] dtor [Fire]) [])).
      destruct (run_parts k up dtor s0 [End; Fire] (fun _ => eq_refl) eq_refl eq_refl P) as (n & s1 & E & A1 & O1 & T1 & _ & M1).
      apply (S [] [Fire] [] [] (repeat 0 n ++ [0; 0])); [easy|intros o [<-|[]]; auto|constructor|constructor|].
      fold s0. rewrite exec_app, E. cbn [bind]. cbn in T1. specialize (M1 eq_refl N).
      destruct s1 as [al co ti ow th]; cbn in *. subst al th ti. reflexivity.
  - intros [Hd Ht] pre post before after sched S1 S2 F1 F2 E.
    destruct (inv_exec k up _ sched _ (inv_start k up tm before pre dtor post after P Hd Ht S1 S2 F1 F2)) as (s' & E' & _). congruence.
Qed.

(** Such a destructor, and every call of the other threads, can always be completed *)
Theorem C112_destruction_completes k up tm dtor pre post before after sched :
  parts dtor -> (forall i, i < k -> In (Disc i) dtor) -> (tm = true -> In Cancel dtor) ->
  spinner pre -> spinner post -> Forall emitter before -> Forall emitter after ->
  exists s more s', exec k up sched (start k tm (program before (destroyer pre dtor post) after)) = Ok s /\ exec k up more s = Ok s' /\ finished s'.
Proof.
  intros P Hd Ht S1 S2 F1 F2.
  destruct (inv_exec k up _ sched _ (inv_start k up tm before pre dtor post after P Hd Ht S1 S2 F1 F2)) as (s & E & HI & _).
  destruct (can_finish k up _ s HI) as (more & s' & E' & F). eauto 6.
Qed.

Lemma parts_disconnect k : parts (synchronizer_dtor k).
Proof. intros o H. apply in_map_iff in H. destruct H as (i & <- & _). eauto. Qed.
Lemma disconnects k i : i < k -> In (Disc i) (synchronizer_dtor k).
Proof. intros H. apply in_map. apply in_seq. lia. Qed.

(** Cache; the synchronizers; and, if the thread that destroys them also runs their timer, TimeSequencer and
    InputAligner *)
Theorem C112_cache_partial up : safe_destructor 1 up false cache_dtor.
Proof. apply C112_safe_iff_disconnected; [exact (parts_disconnect 1)|]. split; [|discriminate]. exact (disconnects 1). Qed.
Theorem C112_synchronizer_partial k up : safe_destructor k up false (synchronizer_dtor k).
Proof. apply C112_safe_iff_disconnected; [apply parts_disconnect|]. split; [|discriminate]. exact (disconnects k). Qed.
Theorem C112_time_sequencer_partial up : safe_destructor 1 up true sequencer_dtor.
Proof.
  apply C112_safe_iff_disconnected; [intros o [<-|[<-|[]]]; eauto|]. split; [|intros _; now left]. intros i Hi. replace i with 0 by lia. right. now left.
Qed.
Theorem C112_input_aligner_partial k up : safe_destructor k up true (aligner_dtor k).
Proof.
  apply C112_safe_iff_disconnected.
  - intros o H. apply in_app_or in H. destruct H as [H|[<-|[]]]; [now apply (parts_disconnect k)|auto].
  - split; [|intros _; apply in_or_app; right; now left]. intros i Hi. apply in_or_app. left. now apply disconnects.
Qed.

(** The same threads: two emitters and the destroyer of a synchronizer whose two inputs are connected to one
    filter.  One emitter is inside the callback of input 0 when the destructor begins: it waits; in the end
    the filter is gone and all calls have returned. *)
Definition sample_sched : list nat := [0; 0; 0; 1; 1; 2; 1; 0; 0; 0; 0; 1; 1; 1; 2; 2; 1; 2; 1; 1; 1; 2; 1; 1; 1].
Example C112_sample : exists s, exec 2 (fun _ => 0) sample_sched (start 2 false (program [[Emit 0]] (destroyer [] (synchronizer_dtor 2) []) [[Emit 0]])) = Ok s /\
  alive s = false /\ finished s.
Proof.
  eexists. split; [vm_compute; reflexivity|]. split; [reflexivity|]. intros t [<-|[<-|[<-|[]]]]; reflexivity.
Qed.

(** ** C112 is false of filters without a destructor *)
Theorem C112_passthrough_refuted up : ~ safe_destructor 1 up false passthrough_dtor.
Proof. intros S. apply C112_safe_iff_disconnected in S; [|easy]. destruct S as [S _]. destruct (S 0); auto. Qed.

(** ... and of every filter with a timer that another thread runs, whatever its destructor disconnects *)
Theorem C112_timer_refuted k up dtor : parts dtor ->
  exists sched, exec k up sched (start k true [dtor ++ [End]; [Fire]]) = Err UB.
Proof.
  intros P. set (s0 := goto (start k true [dtor ++ [End]; [Fire]]) 1 Firing []).
  destruct (run_parts k up dtor s0 [End] (fun _ => eq_refl) eq_refl eq_refl P) as (n & s1 & E & A1 & O1 & T1 & _).
  exists (1 :: repeat 0 n ++ [0; 1]). cbn [exec]. replace (step k up 1 _) with (Ok s0) by reflexivity. cbn [bind]. rewrite exec_app, E. cbn [bind].
  cbn in T1. destruct s1 as [al co ti ow th]; cbn in *. subst al th. reflexivity.
Qed.
Corollary C112_time_sequencer_refuted up : exists sched, exec 1 up sched (start 1 true [sequencer_dtor ++ [End]; [Fire]]) = Err UB.
Proof. apply C112_timer_refuted. intros o [<-|[<-|[]]]; eauto. Qed.

Print Assumptions C112_safe_iff_disconnected.
Print Assumptions C112_destruction_completes.
Print Assumptions C112_cache_partial.
Print Assumptions C112_synchronizer_partial.
Print Assumptions C112_time_sequencer_partial.
Print Assumptions C112_input_aligner_partial.
Print Assumptions C112_passthrough_refuted.
Print Assumptions C112_timer_refuted.
Print Assumptions C112_time_sequencer_refuted.
