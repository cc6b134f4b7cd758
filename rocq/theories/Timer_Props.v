(** C123: a filter that is being destroyed is not called by its timer. *)
From Coq Require Import List Arith Lia Bool.
From Verif Require Import Base Trace Timer_Model Timer_Spec Timer_Proofs.
Import ListNotations.

(** While a filter is in use nothing fails, also if timers are set up again. *)
Theorem C123_in_use_never_fails m h :
  ~ In Part h -> (exists s, run (sequencer m) h = Ok s) /\ (exists s, run (aligner m) h = Ok s).
Proof.
  intros HP. destruct (use_run h _ (sequencer_use m) HP) as (s & Hs & _). destruct (use_run h _ (aligner_use m) HP) as (s' & Hs' & _).
  split; eauto.
Qed.

(** An executor that is free can call the timer in use, as often as it likes. *)
Theorem C123_timer_in_use_is_called m h s e t :
  ~ In Part h -> run (sequencer m) h = Ok s \/ run (aligner m) h = Ok s ->
  cur s = Some t -> nth_error (execs s) e = Some Away ->
  exists s', run s [Collect e t; Begin e] = Ok s' /\ nth_error (execs s') e = Some (Running t).
Proof.
  intros HP Hr Hc He. apply in_use_called; auto.
  destruct Hr as [Hr|Hr]; [destruct (use_run h _ (sequencer_use m) HP) as (s' & Hs & HU & _)|
    destruct (use_run h _ (aligner_use m) HP) as (s' & Hs & HU & _)]; rewrite Hr in Hs; injection Hs as <-; auto.
Qed.
Example C123_ex_in_use : exists s, run (aligner 2) [Setup; Collect 0 0; Begin 0; Finish 0; Setup] = Ok s /\ cur s = Some 1 /\
  nth_error (execs s) 1 = Some Away.
Proof. eexists. split; [vm_compute; reflexivity|]. auto. Qed.

(** A TimeSequencer can be destroyed safely exactly while its timer callback does not run. *)
Theorem C123_sequencer_destruction m h s :
  in_use false h -> run (sequencer m) h = Ok s -> (may_fail s <-> somebody_runs s).
Proof. apply seq_safe_iff. Qed.
Example C123_ex_sequencer :
  (exists s, run (sequencer 1) [Collect 0 0] = Ok s /\ ~ somebody_runs s /\
     exists s', run s [Part; Part; Begin 0; Part] = Ok s' /\ todo s' = [] /\ alive s' = false) /\
  run (sequencer 1) [Collect 0 0; Begin 0; Part; Part; Finish 0] = Err UB.
Proof.
  split; [|vm_compute; reflexivity]. eexists. split; [vm_compute; reflexivity|]. split.
  - intros ([|[|e]] & t & H); discriminate.
  - eexists. split; [vm_compute; reflexivity|]. auto.
Qed.

(** An InputAligner can be destroyed safely exactly while no executor refers to any of its timers. *)
Theorem C123_aligner_destruction m h s :
  in_use true h -> run (aligner m) h = Ok s -> (may_fail s <-> somebody_refers s).
Proof. apply al_safe_iff. Qed.
Example C123_ex_aligner :
  exists s, run (aligner 1) [Setup; Collect 0 0; Begin 0; Finish 0] = Ok s /\ ~ somebody_refers s.
Proof.
  eexists. split; [vm_compute; reflexivity|]. intros ([|[|e]] & p & H & Hp); cbn in H; congruence.
Qed.

(** That no callback runs is not enough: an executor that has found the timer ready calls it later. *)
Theorem C123_aligner_needs_no_running_callback_refuted :
  ~ (forall m h s, in_use true h -> run (aligner m) h = Ok s -> may_fail s -> somebody_runs s).
Proof.
  intros H. destruct (run (aligner 1) [Setup; Collect 0 0]) as [s|] eqn:Hr; [|discriminate].
  assert (HU : in_use true [Setup; Collect 0 0]) by (split; [intros [X|[X|[]]]; discriminate|discriminate]).
  specialize (H 1 _ s HU Hr). injection Hr as <-.
  destruct H as (e & t & He).
  - exists [Part; Begin 0]. split; [intros [X|[X|[]]]; discriminate|]. vm_compute. reflexivity.
  - destruct e as [|[|e]]; discriminate.
Qed.

(** It would be, if the destructor cancelled the timer before anything else, provided executors do
    not hold timers that were replaced. *)
Theorem C123_cancelling_first_suffices s l :
  todo s = PCancel :: l -> (forall e t, nth_error (execs s) e = Some (Holding t) -> cur s = Some t) ->
  may_fail s -> somebody_runs s.
Proof. apply cancel_first. Qed.
Example C123_ex_cancelling_first :
  let s := mkState true (Some 0) 1 [] [Holding 0] (PCancel :: aligner_dtor) in
  (forall e t, nth_error (execs s) e = Some (Holding t) -> cur s = Some t) /\ ~ somebody_runs s /\
  exists s', run s [Part; Part; Part; Begin 0] = Ok s' /\ alive s' = false.
Proof.
  cbn zeta. split; [intros [|[|e]] t H; cbn in *; congruence|]. split; [intros ([|[|e]] & t & H); discriminate|].
  eexists. split; [vm_compute; reflexivity|]. auto.
Qed.

(** Setting up the timer again replaces it: the old one is not called any more, except by executors
    that hold it already. *)
Theorem C123_setup_replaces_the_timer m h s t h2 s' :
  ~ In Part h -> run (aligner m) h = Ok s -> cur s = Some t -> ~ referred t s ->
  run s (Setup :: h2) = Ok s' -> ~ referred t s'.
Proof.
  intros HP Hr Hc HN Hr2. destruct (use_run h _ (aligner_use m) HP) as (s0 & Hs & [U1 _ _ U4] & _).
  rewrite Hr in Hs. injection Hs as <-. cbn [run step] in Hr2. unfold touch in Hr2. rewrite U1 in Hr2. cbn [bind] in Hr2.
  eapply gone_run; [|exact Hr2]. specialize (U4 t Hc). split; cbn; [intros [= H]; lia|]. split; [lia|exact HN].
Qed.
Example C123_ex_setup :
  (exists s s', run (aligner 1) [Setup] = Ok s /\ cur s = Some 0 /\ run s [Setup; Collect 0 0; Collect 0 1; Begin 0] = Ok s' /\
     execs s' = [Running 1]) /\
  (exists s, run (aligner 1) [Setup; Collect 0 0; Setup; Begin 0] = Ok s /\ execs s = [Running 0]).
Proof. split; [eexists; eexists; split; [vm_compute; reflexivity|]; split; [auto|]; split; [vm_compute; reflexivity|auto]|].
  eexists. split; [vm_compute; reflexivity|auto]. Qed.

Print Assumptions C123_in_use_never_fails.
Print Assumptions C123_timer_in_use_is_called.
Print Assumptions C123_sequencer_destruction.
Print Assumptions C123_aligner_destruction.
Print Assumptions C123_aligner_needs_no_running_callback_refuted.
Print Assumptions C123_cancelling_first_suffices.
Print Assumptions C123_setup_replaces_the_timer.
