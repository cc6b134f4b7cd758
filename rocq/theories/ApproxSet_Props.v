(** Property C97: the parameters of ApproximateTime may be changed between messages.
    [runs c (init c) h] is the policy constructed with the parameters [c] after the calls [h],
    additions and setters; its result carries the parameters then in force, the state and the
    sets output so far.  [adds h] are the messages added. *)
From Coq Require Import List Arith ZArith Lia Bool.
From Verif Require Import Base RclTime Trace Approx_Model Approx_Spec Approx_Proofs Approx_Opt Approx_More.
From Verif Require ApproxSet_Model.
From Verif Require Import ApproxSet_Spec ApproxSet_Proofs.
From Verif Require Approx_Props.
Import ListNotations.
Import ApproxSet_Model (op, Add, SetAgePenalty, SetLowerBound, SetMaxInterval, penalty, mkPenalty, nonneg, factor).
Local Open Scope Z_scope.

Section Props.
Context {E : Type} (stamp : E -> Z).
Notation runs := (ApproxSet_Model.run stamp).

(** Whatever is set in between, to whatever allowed values: every history runs to completion. *)
Theorem C97_setters_never_fail c0 (h : list (op E)) :
  (0 < n c0)%nat -> (0 < queue_size c0)%nat -> Forall (allowed (n c0)) h ->
  exists c s outs, runs c0 (init c0) h = Ok (c, s, outs).
Proof.
  intros Hn Hq HA. destruct (runs_accounting stamp c0 Hn Hq h HA) as (c & s & outs & Hr & _). eauto.
Qed.

(** A setter that is called with a negative value or for an input that does not exist is the
    only way to fail. *)
Theorem C97_setters_fail_only_if_not_allowed c0 (h : list (op E)) :
  (0 < n c0)%nat -> (0 < queue_size c0)%nat -> well_indexed (n c0) (adds h) ->
  ((exists c s outs, runs c0 (init c0) h = Ok (c, s, outs)) <-> Forall (allowed (n c0)) h).
Proof.
  intros Hn Hq HI. split; [|now apply C97_setters_never_fail].
  induction h as [|o h IH] using rev_ind; [constructor|]. intros (c & s & outs & Hr).
  rewrite runs_app in Hr.
  destruct (runs c0 (init c0) h) as [((c1 & s1) & o1)|] eqn:E1; [|discriminate]. cbn [bind] in Hr.
  assert (Forall (allowed (n c0)) h) as HA.
  { apply IH; eauto. intros i e Hie. apply (HI i e). rewrite adds_app. apply in_or_app. auto. }
  apply Forall_app. split; auto. constructor; [|constructor].
  destruct (runs_accounting stamp c0 Hn Hq h HA) as (c' & s' & outs' & Hr' & En & _).
  rewrite E1 in Hr'. injection Hr' as <- <- <-.
  destruct o as [i e|p|i b|d]; cbn [ApproxSet_Model.run ApproxSet_Model.step allowed] in *.
  - apply (HI i e). rewrite adds_app. apply in_or_app. right. now left.
  - unfold ApproxSet_Model.set_age_penalty in Hr. destruct (nonneg p); [auto|discriminate].
  - unfold ApproxSet_Model.set_lower_bound in Hr. destruct (Z.ltb_spec b 0); [discriminate|].
    destruct (Nat.ltb_spec i (n c1)); [|discriminate]. split; lia.
  - unfold ApproxSet_Model.set_max_interval in Hr. destruct (Z.ltb_spec d 0); [discriminate|lia].
Qed.

(** A negative value stops at an assertion, in any state; setting the lower bound of an input that
    does not exist is undefined. *)
Theorem C97_negative_value_asserts c (s : state E) p i b d :
  (nonneg p = false -> ApproxSet_Model.step stamp c s (SetAgePenalty p) = Err AssertFailed) /\
  (b < 0 -> ApproxSet_Model.step stamp c s (SetLowerBound i b) = Err AssertFailed) /\
  (0 <= b -> (n c <= i)%nat -> ApproxSet_Model.step stamp c s (SetLowerBound i b) = Err UB) /\
  (d < 0 -> ApproxSet_Model.step stamp c s (SetMaxInterval d) = Err AssertFailed).
Proof.
  unfold ApproxSet_Model.step, ApproxSet_Model.set_age_penalty, ApproxSet_Model.set_lower_bound, ApproxSet_Model.set_max_interval. repeat split.
  - intros ->. reflexivity.
  - intros H. apply Z.ltb_lt in H. now rewrite H.
  - intros H Hi. apply Z.ltb_ge in H. apply Nat.ltb_ge in Hi. now rewrite H, Hi.
  - intros H. apply Z.ltb_lt in H. now rewrite H.
Qed.

(** The parameters in force are the ones set last; the number of inputs and the queue size
    stay. *)
Theorem C97_parameters_in_force c0 (h : list (op E)) c s outs :
  (0 < n c0)%nat -> (0 < queue_size c0)%nat -> Forall (allowed (n c0)) h ->
  runs c0 (init c0) h = Ok (c, s, outs) ->
  n c = n c0 /\ queue_size c = queue_size c0 /\
  max_interval c = last (intervals_set h) (max_interval c0) /\
  scale c = last (map factor (penalties_set h)) (scale c0) /\
  forall i, bound c i = last (bounds_set i h) (bound c0 i).
Proof.
  intros Hn Hq. assert (forall A (l : list A) x d, last (l ++ [x]) d = x) as HL by (intros; apply last_last).
  revert c s outs. induction h as [|o h IH] using rev_ind; intros c s outs HA Hr.
  - injection Hr as <- <- <-. auto.
  - apply Forall_app in HA as (HA & Ho). inversion Ho as [|? ? Ho1 _]; subst.
    rewrite runs_app in Hr.
    destruct (runs c0 (init c0) h) as [((c1 & s1) & o1)|] eqn:E1; [|discriminate]. cbn [bind] in Hr.
    destruct (IH c1 s1 o1 HA eq_refl) as (I1 & I2 & I3 & I4 & I5).
    unfold intervals_set, penalties_set, bounds_set in *. rewrite !flat_map_app, map_app.
    setoid_rewrite flat_map_app.
    destruct o as [i e|p|i b|d]; cbn [ApproxSet_Model.run ApproxSet_Model.step flat_map map app] in *.
    + destruct (add stamp c1 s1 (i, e)) as [(s2 & o2)|]; [|discriminate]. cbn [bind] in Hr.
      injection Hr as <- <- <-. rewrite !app_nil_r. setoid_rewrite app_nil_r. auto.
    + unfold ApproxSet_Model.set_age_penalty in Hr. rewrite Ho1 in Hr. cbn [bind] in Hr.
      injection Hr as <- <- <-. rewrite HL, !app_nil_r. setoid_rewrite app_nil_r. cbn. auto.
    + unfold ApproxSet_Model.set_lower_bound in Hr. destruct Ho1 as (Hi & Hb).
      destruct (Z.ltb_spec b 0); [discriminate|]. destruct (Nat.ltb_spec i (n c1)); [|discriminate].
      cbn [bind] in Hr. injection Hr as <- <- <-. rewrite !app_nil_r. cbn.
      split; auto. split; auto. split; auto. split; auto. intros j. rewrite Nat.eqb_sym.
      destruct (Nat.eqb_spec i j) as [->|]; cbn [app]; [now rewrite HL|now rewrite app_nil_r].
    + unfold ApproxSet_Model.set_max_interval in Hr. cbn in Ho1. destruct (Z.ltb_spec d 0); [discriminate|].
      cbn [bind] in Hr. injection Hr as <- <- <-. rewrite HL, !app_nil_r. setoid_rewrite app_nil_r. cbn. auto.
Qed.

(** Setters called before the first message: the policy is then one constructed with the
    parameters they leave in force. *)
Theorem C97_setters_before_use c0 (hs : list (op E)) c s outs (h : list (nat * E)) :
  (0 < n c0)%nat -> (0 < queue_size c0)%nat -> Forall (allowed (n c0)) hs -> adds hs = [] ->
  runs c0 (init c0) hs = Ok (c, s, outs) ->
  runs c0 (init c0) (hs ++ map (fun ie => Add (fst ie) (snd ie)) h) =
  do '(s', o) <- run stamp c (init c) h; Ok (c, s', o).
Proof.
  intros Hn Hq HA Hadd Hr. rewrite runs_app, Hr. cbn [bind]. rewrite runs_adds.
  assert (s = init c /\ outs = []) as (-> & ->).
  { revert c s outs Hr Hadd HA. induction hs as [|o hs IH] using rev_ind; intros c s outs Hr Hadd HA.
    - injection Hr as <- <- <-. auto.
    - apply Forall_app in HA as (HA & Ho). inversion Ho as [|? ? Ho1 _]; subst.
      rewrite adds_app in Hadd. apply app_eq_nil in Hadd as (Hadd & Ha).
      rewrite runs_app in Hr.
      destruct (runs c0 (init c0) hs) as [((c1 & s1) & o1)|] eqn:E1; [|discriminate]. cbn [bind] in Hr.
      destruct (IH c1 s1 o1 eq_refl Hadd HA) as (-> & ->).
      destruct (runs_accounting stamp c0 Hn Hq hs HA) as (c' & s' & outs' & Hr' & En & _).
      rewrite E1 in Hr'. injection Hr' as <- <- <-.
      assert (is_add o = false) as Hia by (destruct o; [discriminate Ha| | |]; reflexivity).
      destruct (setter_ok stamp (n c0) c1 (init c1) o Hia Ho1 En) as (c2 & E2 & E3 & _).
      cbn [ApproxSet_Model.run] in Hr. rewrite E2 in Hr. cbn [bind] in Hr. injection Hr as <- <- <-.
      split; auto. unfold init. now rewrite E3. }
  destruct (run stamp c (init c) h) as [(s' & o)|]; reflexivity.
Qed.

(** Every set is complete; per input, what is held is the most recent part of what was
    received and at most queue_size messages, what was output comes from the part before. *)
Theorem C97_setters_keep_most_recent c0 (h : list (op E)) c s outs :
  (0 < n c0)%nat -> (0 < queue_size c0)%nat -> Forall (allowed (n c0)) h ->
  runs c0 (init c0) h = Ok (c, s, outs) ->
  Forall (fun X => length X = n c0) outs /\
  forall i, (i < n c0)%nat ->
    (length (nth i (pending s) []) <= queue_size c0)%nat /\
    exists gone, stream i (adds h) = gone ++ nth i (pending s) [] /\ subseq (column i outs) gone.
Proof.
  intros Hn Hq HA Hr. destruct (runs_accounting stamp c0 Hn Hq h HA) as (c' & s' & o' & Hr' & En & _ & HI & HF & HC).
  rewrite Hr in Hr'. injection Hr' as <- <- <-. split; auto. intros i Hi.
  rewrite (nth_pending c) by apply (inv_wf _ _ _ HI). fold (pend s i).
  destruct (HC i Hi) as ((d & H1 & H2) & H3). eauto.
Qed.

(** Whatever the stamps and whenever the parameters are changed: no set spans more than the
    largest maximum interval that was in force, whatever penalties were set, as long as a
    duration does not get shorter when it is multiplied by 1 + penalty. *)
Theorem C97_setters_max_interval c0 M (h : list (op E)) c s outs X :
  (0 < n c0)%nat -> (0 < queue_size c0)%nat -> Forall (allowed (n c0)) h ->
  max_interval c0 <= M -> Forall (fun d => d <= M) (intervals_set h) ->
  lengthens (scale c0) -> Forall (fun p => lengthens (factor p)) (penalties_set h) ->
  runs c0 (init c0) h = Ok (c, s, outs) -> In X outs -> span stamp X <= M.
Proof.
  intros Hn Hq HA HM HMs HL HLs Hr HX.
  pose proof (runs_span stamp c0 M h c s outs Hn Hq HA HM HMs HL HLs Hr) as HF.
  rewrite Forall_forall in HF. auto.
Qed.

(** No search is in progress whenever some input holds nothing. *)
Theorem C97_idle_if_an_input_is_empty c0 (h : list (op E)) c s outs i :
  (0 < n c0)%nat -> (0 < queue_size c0)%nat -> Forall (allowed (n c0)) h ->
  runs c0 (init c0) h = Ok (c, s, outs) -> (i < n c0)%nat -> nth i (pending s) [] = [] ->
  pivot s = None.
Proof.
  intros Hn Hq HA Hr Hi He. destruct (runs_accounting stamp c0 Hn Hq h HA) as (c' & s' & o' & Hr' & En & _ & HI & _).
  rewrite Hr in Hr'. injection Hr' as <- <- <-.
  apply (idle_if_empty stamp c s i); auto; [lia|].
  rewrite (nth_pending c) in He by apply (inv_wf _ _ _ HI). exact He.
Qed.

(** Once the parameters have been changed any number of times and no search is in progress,
    the sets that follow are optimal for the parameters now in force, among the sets made of
    what is held and what is still to come; only these messages have to respect the bounds
    now in force. *)
Theorem C97_optimal_for_the_parameters_in_force c0 (h : list (op E)) c s outs tol num den F h2 s2 outs2 :
  (0 < n c0)%nat -> (0 < queue_size c0)%nat -> Forall (allowed (n c0)) h ->
  runs c0 (init c0) h = Ok (c, s, outs) -> pivot s = None ->
  scaling tol num den (scale c) -> respects stamp (n c) (bound c) F ->
  well_indexed (n c) h2 ->
  (forall i, (i < n c)%nat -> prefix (nth i (pending s) [] ++ stream i h2) (F i)) ->
  run stamp c s h2 = Ok (s2, outs2) ->
  each_set (n c) (optimal_set stamp (n c) F num den tol) outs2.
Proof.
  intros Hn Hq HA Hr Hp SC HF HI HC Hr2.
  destruct (runs_accounting stamp c0 Hn Hq h HA) as (c' & s' & o' & Hr' & En & Eq & HInv & _).
  rewrite Hr in Hr'. injection Hr' as <- <- <-.
  destruct (idle_run stamp c tol num den SC F HF ltac:(lia) ltac:(lia) False s h2 s2 outs2) as (b & Hb); auto.
  - intros i Hi. specialize (HC i Hi). rewrite (nth_pending c) in HC by apply (inv_wf _ _ _ HInv). exact HC.
  - tauto.
  - exists b. eapply sets_from_impl; [|exact Hb]. intros ? x X (H & _). exact H.
Qed.

(** And if nothing was just dropped and no queue overflows, they are the sets the search
    with the parameters now in force finds, one after the other. *)
Theorem C97_found_with_the_parameters_in_force c0 (h : list (op E)) c s outs tol num den F h2 s2 outs2 :
  (0 < n c0)%nat -> (0 < queue_size c0)%nat -> Forall (allowed (n c0)) h ->
  runs c0 (init c0) h = Ok (c, s, outs) -> pivot s = None ->
  (forall i, nth i (dropped s) false = false) ->
  scaling tol num den (scale c) -> respects stamp (n c) (bound c) F ->
  well_indexed (n c) h2 ->
  (forall i, (i < n c)%nat -> prefix (nth i (pending s) [] ++ stream i h2) (F i)) ->
  no_overflow_from stamp c s h2 ->
  run stamp c s h2 = Ok (s2, outs2) ->
  each_set (n c) (fun base x X =>
    next_set stamp (n c) F num den (max_interval c) tol base x X /\
    found_set stamp (n c) F (max_interval c) (scale c) base x X) outs2.
Proof.
  intros Hn Hq HA Hr Hp Hd SC HF HI HC Hno Hr2.
  destruct (runs_accounting stamp c0 Hn Hq h HA) as (c' & s' & o' & Hr' & En & Eq & HInv & _).
  rewrite Hr in Hr'. injection Hr' as <- <- <-.
  destruct (idle_run stamp c tol num den SC F HF ltac:(lia) ltac:(lia) True s h2 s2 outs2) as (b & Hb); auto.
  - intros i Hi. specialize (HC i Hi). rewrite (nth_pending c) in HC by apply (inv_wf _ _ _ HInv). exact HC.
  - exists b. eapply sets_from_impl; [|exact Hb]. intros ? x X (_ & H). now apply H.
Qed.
End Props.

(* ------------------------------------------------------------------ *)
(** Concrete cases; the messages are their stamps. *)
Notation id := (fun z : Z => z).
Definition cfg_ex : cfg := mkCfg 2 10 100 (scale_by 11 10) (fun _ => 0).
Definition A (z : Z) : op Z := Add 0 z.
Definition B (z : Z) : op Z := Add 1 z.
Definition result (h : list (op Z)) : option (Z * list (list Z)) :=
  match ApproxSet_Model.run id cfg_ex (init cfg_ex) h with
  | Ok (c, _, o) => Some (max_interval c, o)
  | Err _ => None
  end.

(** A maximum interval that is lowered during a search does not apply to that search: the set
    [0; 10] is output although the maximum interval in force is 5.  This is why
    [C97_setters_max_interval] speaks of the largest one.  The search after it respects it. *)
Theorem C97_current_max_interval_refuted :
  ~ (forall (h : list (op Z)) o c s outs c' s' outs', Forall (allowed 2) (h ++ [o]) ->
       ApproxSet_Model.run id cfg_ex (init cfg_ex) h = Ok (c, s, outs) ->
       ApproxSet_Model.step id c s o = Ok (c', s', outs') ->
       forall X, In X outs' -> span id X <= max_interval c).
Proof.
  intros H.
  assert (exists c s, ApproxSet_Model.run id cfg_ex (init cfg_ex) [A 0; B 10; SetMaxInterval 5] = Ok (c, s, []) /\
            max_interval c = 5 /\ exists c' s', ApproxSet_Model.step id c s (A 30) = Ok (c', s', [[0; 10]]))
    as (c & s & E1 & E2 & c' & s' & E3).
  { eexists _, _. split; [vm_compute; reflexivity|]. split; [reflexivity|].
    eexists _, _. vm_compute. reflexivity. }
  specialize (H [A 0; B 10; SetMaxInterval 5] (A 30) c s [] c' s' [[0; 10]]
    ltac:(repeat constructor; cbn; lia) E1 E3 [0; 10] (or_introl eq_refl)).
  rewrite E2 in H. vm_compute in H. apply H. reflexivity.
Qed.

Example C97_lowered_interval : result [A 0; B 10; SetMaxInterval 5; A 30; B 40; A 41; B 60; A 60]
  = Some (5, [[0; 10]; [41; 40]; [60; 60]]).
Proof. vm_compute. reflexivity. Qed.
Example C97_negative_fails : result [A 0; SetMaxInterval (-1)] = None.
Proof. reflexivity. Qed.

(** The hypotheses of the theorems are met by a history with changes of all parameters, in the
    middle of which no search is in progress. *)
Definition p12 : penalty := mkPenalty true (scale_by 12 10).
Definition ex_h : list (op Z) :=
  [SetLowerBound 0 4; A 0; B 1; A 5; SetAgePenalty p12; B 6; A 10; B 10; SetMaxInterval 50; SetLowerBound 0 7; SetLowerBound 1 2].
Lemma scale_by_lengthens num den : 0 < den -> den <= num -> lengthens (scale_by num den).
Proof.
  intros Hd Hn d Hdd. unfold scale_by. rewrite Z.quot_div_nonneg by nia. apply Z.div_le_lower_bound; nia.
Qed.
Definition ex_F (i : nat) : list Z := match i with O => [12; 20; 27; 40] | _ => [13; 21; 30] end.
Example C97_hypotheses_met :
  Forall (allowed 2) ex_h /\ Forall (fun p => lengthens (factor p)) (penalties_set ex_h) /\
  lengthens (scale cfg_ex) /\ Forall (fun d => d <= 100) (intervals_set ex_h) /\
  exists c s outs, ApproxSet_Model.run id cfg_ex (init cfg_ex) ex_h = Ok (c, s, outs) /\
    outs = [[0; 1]; [5; 6]; [10; 10]] /\ pivot s = None /\ (forall i, nth i (dropped s) false = false) /\
    scaling 0 12 10 (scale c) /\ max_interval c = 50 /\ bound c 0 = 7 /\ respects id 2 (bound c) ex_F /\
    exists s2, run id c s [(0%nat, 12); (1%nat, 13); (0%nat, 20); (1%nat, 21)] = Ok (s2, [[12; 13]; [20; 21]]).
Proof.
  split; [repeat constructor; cbn; lia|].
  split; [repeat constructor; apply scale_by_lengthens; lia|].
  split; [apply scale_by_lengthens; lia|]. split; [repeat constructor; lia|].
  eexists _, _, _. split; [vm_compute; reflexivity|]. split; [reflexivity|]. split; [reflexivity|].
  split; [intros [|[|[|i]]]; reflexivity|].
  split; [apply (Approx_Props.scale_by_scaling 12 10); lia|]. split; [reflexivity|]. split; [reflexivity|].
  split.
  { intros [|[|i]] Hi; [| |lia]; (split; [cbn; lia|]); apply Approx_Props.spaced_check; reflexivity. }
  eexists. vm_compute. reflexivity.
Qed.

Fixpoint no_overflow_check (c : cfg) (s : state Z) (h : list (nat * Z)) : bool :=
  match h with
  | [] => true
  | (i, e) :: h' =>
      match add_process id c s i e with
      | Ok (s2, _) => Nat.leb (length (nth i (pending s2) [])) (queue_size c)
      | Err _ => true
      end &&
      match add id c s (i, e) with Ok (s', _) => no_overflow_check c s' h' | Err _ => true end
  end.
Lemma no_overflow_check_ok c h : forall s, no_overflow_check c s h = true -> no_overflow_from id c s h.
Proof.
  induction h as [|[i e] h IH]; intros s H h1 j x h2 Eh s1 o1 s2 o2 R1 R2.
  - destruct h1; discriminate.
  - cbn [no_overflow_check] in H. apply andb_prop in H as (H1 & H2).
    destruct h1 as [|y h1]; injection Eh as; subst.
    + injection R1 as <- <-. rewrite R2 in H1. now apply Nat.leb_le.
    + cbn [run] in R1. destruct (add id c s (i, e)) as [(s' & o')|]; [|discriminate]. cbn [bind] in R1.
      destruct (run id c s' h1) as [(s3 & o3)|] eqn:E1; [|discriminate]. injection R1 as <- <-.
      eapply (IH s' H2); eauto.
Qed.
Example C97_no_overflow_met :
  exists c s outs, ApproxSet_Model.run id cfg_ex (init cfg_ex) ex_h = Ok (c, s, outs) /\
    no_overflow_from id c s [(0%nat, 12); (1%nat, 13); (0%nat, 20); (1%nat, 21)].
Proof.
  eexists _, _, _. split; [vm_compute; reflexivity|]. apply no_overflow_check_ok. vm_compute. reflexivity.
Qed.

Print Assumptions C97_setters_never_fail.
Print Assumptions C97_setters_fail_only_if_not_allowed.
Print Assumptions C97_parameters_in_force.
Print Assumptions C97_setters_before_use.
Print Assumptions C97_setters_keep_most_recent.
Print Assumptions C97_setters_max_interval.
Print Assumptions C97_idle_if_an_input_is_empty.
Print Assumptions C97_optimal_for_the_parameters_in_force.
Print Assumptions C97_found_with_the_parameters_in_force.
Print Assumptions C97_current_max_interval_refuted.
Print Assumptions C97_negative_value_asserts.
