(** C102: exceptions thrown by callbacks reach the caller.  [h] pairs each call on a filter with an
    oracle saying which of the callbacks it calls throw; [tr] has one entry per call, the callbacks
    called and whether an exception left the call.  [reaches] (Throw_Spec): the callback that
    throws is the last one called, and an exception leaves the call exactly if one throws. *)
From Coq Require Import List Arith ZArith Bool Lia.
From Verif Require Import Base RclTime Throw_Model Throw_Spec Throw_Reach.
From Verif Require Cache_Model Latest_Model Seq_Model Aligner_Model Exact_Model Eps_Model Approx_Model Approx_Props.
Import ListNotations.
Local Open Scope Z_scope.

Definition all_reach {I O} (h : list (I * oracle)) (tr : list (list O * bool)) : Prop :=
  Forall2 (fun c r => reaches (snd c) (fst r) (snd r)) h tr.

Theorem C102_sequencer {E} (stamp : E -> time) q delay h s s' tr :
  run_t (seq_step_t stamp q delay) s h = Ok (s', tr) -> all_reach h tr.
Proof. apply run_reaches. intros. eapply seq_reaches; eauto. Qed.
Theorem C102_aligner {E} (stamp : E -> Z) timeout h s s' tr :
  run_t (aligner_step_t stamp timeout) s h = Ok (s', tr) -> all_reach h tr.
Proof. apply run_reaches. intros. eapply aligner_reaches; eauto. Qed.
Theorem C102_exact {E} (stamp : E -> Z) n q h (s s' : Exact_Model.state E) tr :
  run_t (exact_add_t stamp n q) s h = Ok (s', tr) -> all_reach h tr.
Proof. apply run_reaches. intros. eapply exact_reaches; eauto. Qed.
Theorem C102_eps {E} (stamp : E -> Z) n q eps h (s s' : Eps_Model.state E) tr :
  run_t (eps_add_t stamp n q eps) s h = Ok (s', tr) -> all_reach h tr.
Proof. apply run_reaches. intros. eapply eps_reaches; eauto. Qed.
Theorem C102_approx {E} (stamp : E -> Z) c h (s s' : Approx_Model.state E) tr :
  run_t (approx_add_t stamp c) s h = Ok (s', tr) -> all_reach h tr.
Proof. apply run_reaches. intros. eapply approx_reaches; eauto. Qed.

(** Cache: one result per call.  Unless the call fails by itself, its callbacks are those for the
    message forwarded, if any. *)
Definition forwarded {E} (o : Cache_Model.out E) : bool := match o with Cache_Model.Forwarded _ => true | _ => false end.
Theorem C102_cache {E} (stamp : E -> time) h (s s' : Cache_Model.state E) tr :
  run_t (cache_step_t stamp) s h = Ok (s', tr) ->
  Forall2 (fun c r => (forall e, ~ In (Cache_Model.Failed e) (fst r)) -> reaches (snd c) (filter forwarded (fst r)) (snd r)) h tr.
Proof.
  revert s s' tr. induction h as [|[x th] h IH]; intros s s' tr H; cbn [run_t] in H.
  - injection H as _ <-. constructor.
  - unfold cache_step_t in H at 1. destruct (Cache_Model.step stamp s x) as [s1 o]. cbn [bind] in H.
    destruct (run_t (cache_step_t stamp) s1 h) as [[s2 tr2]|] eqn:E2; [|discriminate]. cbn in H. injection H as _ <-. constructor; [|eauto].
    cbn. intros HF. destruct o; cbn; try apply reaches_nil; [apply reaches_one|]. elim (HF e). now left.
Qed.

(** LatestTime likewise. *)
Definition published {E} (o : Latest_Model.outcome E) : bool := match o with Latest_Model.Published _ => true | _ => false end.
Theorem C102_latest {E D} (f : Latest_Model.fops D) n default h (s s' : Latest_Model.state E D) tr :
  run_t (latest_step_t f n default) s h = Ok (s', tr) ->
  Forall2 (fun c r => if existsb (fun o => match o with Latest_Model.Threw => true | _ => false end) (fst r)
                      then filter published (fst r) = [] /\ snd r = true
                      else reaches (snd c) (filter published (fst r)) (snd r)) h tr.
Proof.
  revert s s' tr. induction h as [|[x th] h IH]; intros s s' tr H; cbn [run_t] in H.
  - injection H as _ <-. constructor.
  - unfold latest_step_t in H at 1. destruct (Latest_Model.step f n default s x) as [[s1 o]|]; [|discriminate]. cbn [bind] in H.
    destruct (run_t (latest_step_t f n default) s1 h) as [[s2 tr2]|] eqn:E2; [|discriminate]. cbn in H. injection H as _ <-. constructor; [|eauto].
    destruct o; cbn; [apply reaches_nil|apply reaches_one|auto].
Qed.

(** * Concrete cases: the second of two callbacks throws *)
Definition second : oracle := Nat.eqb 1.
Definition st (m : Z * nat) : time := mkTime (fst m) SystemClock.
Example C102_sequencer_nonvacuous : exists s',
  run_t (seq_step_t st 0 0) Seq_Model.init
    [(Seq_Model.Add (1, 0%nat), second); (Seq_Model.Add (2, 0%nat), second); (Seq_Model.Add (3, 0%nat), second);
     (Seq_Model.Tick (fun _ => 10), second)] = Ok (s', [([], false); ([], false); ([], false); ([(1, 0%nat); (2, 0%nat)], true)]).
Proof. eexists. reflexivity. Qed.
(** a message of input [i] with stamp [t] *)
Definition m (i : nat) (t : Z) : nat * (Z * nat) := (i, (t, i)).
Example C102_eps_nonvacuous : exists s',
  run_t (eps_add_t fst 2 9 0) (Eps_Model.init 2)
    [(m 0 5, second); (m 0 6, second); (m 0 7, second); (m 1 5, second); (m 1 6, second)] =
    Ok (s', [([], false); ([], false); ([], false); ([[(5, 0%nat); (5, 1%nat)]], false); ([[(6, 0%nat); (6, 1%nat)]], false)]).
Proof. eexists. reflexivity. Qed.
Example C102_exact_nonvacuous : exists s',
  run_t (exact_add_t fst 2 9) Exact_Model.init [(m 0 4, second); (m 0 5, second); (m 1 5, second)] =
    Ok (s', [([], false); ([], false); ([Exact_Model.Signal [(5, 0%nat); (5, 1%nat)]; Exact_Model.Drop [Some (4, 0%nat); None]], true)]).
Proof. eexists. reflexivity. Qed.
Example C102_aligner_nonvacuous : exists s',
  run_t (aligner_step_t fst 0) (Aligner_Model.init 1)
    [(Aligner_Model.Add 0 (5, 0%nat), second); (Aligner_Model.Add 0 (6, 0%nat), second); (Aligner_Model.Add 0 (7, 0%nat), second); (Aligner_Model.Dispatch, second)] =
    Ok (s', [([], false); ([], false); ([], false); ([m 0 5; m 0 6], true)]).
Proof. eexists. reflexivity. Qed.
Example C102_approx_nonvacuous : exists s',
  run_t (approx_add_t fst (Approx_Props.cfg2 9 0)) (Approx_Model.init (Approx_Props.cfg2 9 0))
    [(m 0 5, fun _ => true); (m 1 5, fun _ => true); (m 1 9, second)] =
    Ok (s', [([], false); ([[(5, 0%nat); (5, 1%nat)]], true); ([], false)]).
Proof. eexists. vm_compute. reflexivity. Qed.

Print Assumptions C102_sequencer.
Print Assumptions C102_aligner.
Print Assumptions C102_exact.
Print Assumptions C102_eps.
Print Assumptions C102_approx.
Print Assumptions C102_cache.
Print Assumptions C102_latest.
