(** Property C84: connections and threads.  [exec sched (start calls)] runs threads that make the given
    calls on one filter, in the order [sched]; its second component lists what is observed. *)
From Coq Require Import List Arith Lia Bool Sorting.Sorted.
From Verif Require Import Base Sched_Proofs Conn_Model Conn_Spec Conn_Proofs.
Import ListNotations.

Section Props.
Context {C M : Type}.
Notation op := (op C M).

(** C84: when disconnect returns, the callback is not running in any thread and it will never be called
    again: what it uses may be destroyed. *)
Theorem C84_disconnect_is_final (calls : list (list op)) sched a b t k :
  snd (exec sched (start calls)) = a ++ Returned t (Disconnect k) None :: b ->
  not_running k a /\ never_called k b.
Proof.
  intros H. destruct (exec_at _ _ _ _ _ H) as (r1 & t' & r2 & _ & H1 & H2 & H3).
  pose proof (Inv_exec r1 _ _ (Inv_start calls)) as I1. cbn [app] in I1. rewrite H1 in I1.
  set (s1 := fst (exec r1 (start calls))) in *. pose proof (step_Step t' s1) as ST. rewrite H2 in ST.
  split.
  - intros x y t2 m E. destruct (i_run _ _ I1 _ _ _ _ _ E) as [R|(l & i & c & R1 & _)]; auto. exfalso.
    inversion ST; subst. assert (t2 = t) by (eapply sole_owner; eauto; reflexivity). subst. congruence.
  - intros t2 m K. apply in_split in K as (x & y & ->). destruct (exec_at _ _ _ _ _ H3) as (q1 & t3 & q2 & _ & G1 & G2 & _).
    pose proof (Inv_step _ _ _ _ _ I1 (step_Step t' s1)) as I2. rewrite H2 in I2.
    pose proof (Inv_exec q1 _ _ I2) as I3. rewrite G1 in I3.
    set (s3 := fst (exec q1 (fst (step t' s1)))) in *. pose proof (step_Step t3 s3) as ST3. rewrite G2 in ST3.
    inversion ST3; subst. destruct (i_ret _ _ I3 t k None) as [N _].
    { apply in_or_app. left. apply in_or_app. right. now left. }
    apply N. unfold ids. apply (in_map fst) with (x := (k, c)). eapply nth_error_In; eauto.
Qed.

(** A callback whose registration returned before an emission was entered, and that nobody began to
    disconnect before the emission returned, is called by it exactly once, with its message. *)
Theorem C84_connected_is_called (calls : list (list op)) sched a b c t k m r :
  snd (exec sched (start calls)) = a ++ Invoked t (Emit m) :: b ++ Returned t (Emit m) r :: c ->
  one_call t b -> connected k a -> not_disconnected k (a ++ b) -> calls_of t k b = [m].
Proof.
  intros H HO HC HD. rewrite app_comm_cons, app_assoc in H. destruct (exec_at _ _ _ _ _ H) as (r1 & t' & r2 & _ & H1 & H2 & _).
  pose proof (Inv_exec r1 _ _ (Inv_start calls)) as I1. cbn [app] in I1. rewrite H1 in I1.
  set (s1 := fst (exec r1 (start calls))) in *. pose proof (step_Step t' s1) as ST. rewrite H2 in ST.
  assert (L : exists l, nth_error (threads s1) t = Some (Leaving (Emit m) r, l)) by (inversion ST; subst; eauto).
  destruct L as (l & L). pose proof (i_now _ _ I1 _ _ _ L) as N. cbn [now] in N. rewrite cur_since in N by auto.
  assert (IK : In k (ids s1)).
  { destruct (i_conn _ _ I1 k) as [X|X]; auto.
    - destruct HC as (t2 & c2 & X). exists t2, c2. apply in_or_app. auto.
    - exfalso. apply X. intros t2 Y. apply (HD t2). apply in_app_or in Y as [Y|[Y|Y]]; [apply in_or_app; auto|discriminate|apply in_or_app; auto]. }
  assert (CO : calls_of t k b = map snd (filter (fun x => Nat.eqb (fst x) k)
     (flat_map (fun e => match e with Began t' k m => if Nat.eqb t' t then [(k, m)] else [] | _ => [] end) b))).
  { clear. unfold calls_of. induction b as [|e b IH]; auto. cbn [flat_map]. rewrite filter_app, map_app, <- IH. f_equal.
    destruct e as [? ?|t' k' m'|? ? ?|? ? ?]; auto. destruct (Nat.eqb t' t); auto. cbn. destruct (Nat.eqb k' k); auto. }
  rewrite CO, N. pose proof (i_nodup _ _ I1) as ND. clear - IK ND.
  induction (ids s1) as [|x l IH]; [destruct IK|]. inversion ND; subst. cbn. destruct (Nat.eqb_spec x k) as [->|Ne].
  - cbn. f_equal.
    assert (G : filter (fun y : nat * M => Nat.eqb (fst y) k) (map (fun k0 => (k0, m)) l) = []).
    { clear IH IK ND. induction l as [|y l IH]; auto. cbn. destruct (Nat.eqb_spec y k) as [->|?].
      - exfalso. apply H1. now left.
      - apply IH; [intros X; apply H1; now right|now inversion H2]. }
    now rewrite G.
  - apply IH; auto. destruct IK; [congruence|auto].
Qed.

Lemma sorted_app_last (l : list nat) x : StronglySorted lt l -> (forall y, In y l -> y < x) -> StronglySorted lt (l ++ [x]).
Proof.
  induction 1 as [|a l HS IH HA]; intros HL; cbn; constructor; auto.
  - constructor.
  - apply IH. intros y Hy. apply HL. now right.
  - apply Forall_app. split; auto. constructor; auto. apply HL. now left.
Qed.
Lemma sorted_erase k (l : list (nat * C)) : StronglySorted lt (map fst l) ->
  StronglySorted lt (map fst (erase k l)) /\ (forall y, In y (map fst (erase k l)) -> In y (map fst l)).
Proof.
  induction l as [|a l IH]; cbn; intros HS; [auto|]. inversion HS as [|? ? HS' HA]; subst. destruct (IH HS') as [I1 I2].
  destruct (Nat.eqb (fst a) k); [split; auto|]. cbn. split.
  - constructor; auto. rewrite Forall_forall in *. auto.
  - intros y [<-|Hy]; auto.
Qed.
Lemma ids_sorted sched : forall (s : state C M), StronglySorted lt (ids s) -> (forall y, In y (ids s) -> y < next s) ->
  StronglySorted lt (ids (fst (exec sched s))).
Proof.
  induction sched as [|t r IH]; intros s HS HL; cbn [exec]; [exact HS|].
  destruct (step t s) as [s1 e1] eqn:E. specialize (IH s1). destruct (exec r s1) as [s2 e2]. cbn [fst] in *.
  assert (G : StronglySorted lt (ids s1) /\ (forall y, In y (ids s1) -> y < next s1)); [|apply IH; tauto].
  clear IH. unfold step in E. unfold ids in *.
  destruct (nth_error (threads s) t) as [[[|o|m i b|c|k|o x] l]|]; [destruct l as [|o l]; [|destruct (exists_yet s o)]|destruct (owner s)
    |destruct (nth_error (callbacks s) i) as [[k c]|]; [destruct b|]| | | |];
    injection E as <- <-; cbn [callbacks next]; auto.
  - rewrite map_app. cbn. split; [now apply sorted_app_last|]. intros y Hy. apply in_app_or in Hy as [Hy|[<-|[]]]; [apply HL in Hy|]; lia.
  - destruct (sorted_erase k _ HS). split; auto.
Qed.

(** An emission calls the callbacks in the order in which they were registered (they are numbered in that
    order), none of them twice. *)
Theorem C84_registration_order (calls : list (list op)) sched a b c t m r :
  snd (exec sched (start calls)) = a ++ Invoked t (Emit m) :: b ++ Returned t (Emit m) r :: c ->
  one_call t b -> StronglySorted lt (called_by t b).
Proof.
  intros H HO. rewrite app_comm_cons, app_assoc in H. destruct (exec_at _ _ _ _ _ H) as (r1 & t' & r2 & _ & H1 & H2 & _).
  pose proof (Inv_exec r1 _ _ (Inv_start calls)) as I1. cbn [app] in I1. rewrite H1 in I1.
  pose proof (ids_sorted r1 (start calls)) as SO.
  set (s1 := fst (exec r1 (start calls))) in *. pose proof (step_Step t' s1) as ST. rewrite H2 in ST.
  assert (L : exists l, nth_error (threads s1) t = Some (Leaving (Emit m) r, l)) by (inversion ST; subst; eauto).
  destruct L as (l & L). pose proof (i_now _ _ I1 _ _ _ L) as N. cbn [now] in N. rewrite cur_since in N by auto.
  assert (CO : called_by t b = map fst
     (flat_map (fun e => match e with Began t' k m => if Nat.eqb t' t then [(k, m)] else [] | _ => [] end) b)).
  { clear. unfold called_by. induction b as [|e b IH]; auto. cbn [flat_map]. rewrite map_app, <- IH. f_equal.
    destruct e as [? ?|t' k' m'|? ? ?|? ? ?]; auto. now destruct (Nat.eqb t' t). }
  rewrite CO, N, map_map. cbn. rewrite map_id. apply SO; [constructor|intros y []].
Qed.

(** The callbacks of one filter never run at the same time. *)
Theorem C84_one_callback_at_a_time (calls : list (list op)) sched : one_at_a_time (snd (exec sched (start calls))).
Proof. apply (i_one _ _ (Inv_exec sched _ _ (Inv_start calls))). Qed.
End Props.

(** Not vacuous: thread 0 registers a callback and emits twice; thread 1 disconnects in the middle of the
    first emission, while the callback is running, and has to wait for its end. *)
Notation example_calls := [[Register tt; Emit 5; Emit 6]; [Disconnect 0]].
Notation example_sched := [0; 0; 0; 0; 0; 0; 0; 1; 1; 1; 1; 0; 0; 1; 0; 1; 1; 1; 1; 0; 0; 0; 0].
Example C84_example : snd (exec (C := unit) example_sched (start example_calls)) =
  [Invoked 0 (Register tt); Returned 0 (Register tt) (Some 0); Invoked 0 (Emit 5); Began 0 0 5;
   Invoked 1 (Disconnect 0); Ended 0 0 5; Returned 0 (Emit 5) None; Returned 1 (Disconnect 0) None;
   Invoked 0 (Emit 6); Returned 0 (Emit 6) None].
Proof. vm_compute. reflexivity. Qed.

(** the hypotheses of C84_connected_is_called are met by a thread that registers and then emits while
    another thread registers and emits too *)
Example C84_example_called : exists a b c,
  snd (exec (C := unit) [0; 0; 0; 0; 0; 0; 1; 1; 0; 0; 0; 0; 1; 1; 1] (start [[Register tt; Emit 5]; [Register tt; Emit 6]])) =
    a ++ Invoked 0 (Emit 5) :: b ++ Returned 0 (Emit 5) None :: c /\
  one_call 0 b /\ connected 0 a /\ not_disconnected 0 (a ++ b) /\ calls_of 0 0 b = [5].
Proof.
  exists [Invoked 0 (Register tt); Returned 0 (Register tt) (Some 0)], [Invoked 1 (Register tt); Began 0 0 5; Ended 0 0 5],
    [Returned 1 (Register tt) (Some 1)].
  split; [vm_compute; reflexivity|]. split; [intros o H; repeat destruct H as [H|H]; try discriminate H; destruct H|].
  split; [exists 0, tt; right; left; reflexivity|]. split; [|reflexivity].
  intros t H. repeat destruct H as [H|H]; try discriminate H; destruct H.
Qed.

Print Assumptions C84_disconnect_is_final.
Print Assumptions C84_connected_is_called.
Print Assumptions C84_registration_order.
Print Assumptions C84_one_callback_at_a_time.
