(** Property C120: output callbacks may change the parameters of the ApproximateTime policy that
    calls them.  [run_cb stamp cb c0 (init c0) [] h] is the policy constructed with the parameters
    [c0] after the additions [h]; [cb] maps the sets output so far, the current one last, to the
    calls its callback makes.  The result carries the parameters then in force, the state and the
    sets output. *)
From Coq Require Import List Arith ZArith Lia Bool.
From Verif Require Import Base RclTime Trace Approx_Model Approx_Spec Approx_Proofs Approx_Opt.
From Verif Require Import ApproxSet_Spec SetBack_Model SetBack_Spec SetBack_Proofs.
From Verif Require Approx_Props ApproxSet_Props.
Import ListNotations.
Import ApproxSet_Model (op, Add, SetAgePenalty, SetLowerBound, SetMaxInterval, penalty, mkPenalty, nonneg, factor).
Local Open Scope Z_scope.

Section Props.
Context {E : Type} (stamp : E -> Z).
Variable cb : list (list E) -> list (op E).
Notation runs c0 h := (run_cb stamp cb c0 (init c0) [] h).

(** Whatever the callback sets, to whatever allowed values: every history runs to completion. *)
Theorem C120_callbacks_never_fail c0 (h : list (nat * E)) :
  (0 < n c0)%nat -> (0 < queue_size c0)%nat -> only_sets cb (n c0) -> well_indexed (n c0) h ->
  exists c s outs, runs c0 h = Ok (c, s, outs).
Proof.
  intros Hn Hq Hcb HI.
  destruct (run_cb_accounting stamp cb c0 Hcb Hn Hq h HI) as (c & s & outs & Hr & _). eauto.
Qed.

(** A callback that adds a message to the policy blocks for ever as soon as a set is output,
    whichever set; up to then it makes no difference. *)
Theorem C120_adding_in_a_callback_deadlocks c0 (h : list (nat * E)) s outs :
  adds_first cb -> run stamp c0 (init c0) h = Ok (s, outs) ->
  runs c0 h = match outs with [] => Ok (c0, s, []) | _ => Err Deadlock end.
Proof.
  intros Hcb Hr. pose proof (run_like stamp cb true Hcb c0 h (init c0) []) as H.
  rewrite Hr in H. cbn in H. rewrite H. now destruct outs.
Qed.

(** A callback that calls nothing: the policy without callbacks. *)
Theorem C120_no_calls_no_difference c0 (h : list (nat * E)) s outs :
  (forall o, cb o = []) -> run stamp c0 (init c0) h = Ok (s, outs) -> runs c0 h = Ok (c0, s, outs).
Proof.
  intros Hcb Hr. pose proof (run_like stamp cb false Hcb c0 h (init c0) []) as H.
  rewrite Hr in H. exact H.
Qed.

(** The parameters in force are the ones set last by the callbacks of the sets output; the number
    of inputs and the queue size stay. *)
Theorem C120_parameters_in_force c0 (h : list (nat * E)) c s outs :
  (0 < n c0)%nat -> (0 < queue_size c0)%nat -> only_sets cb (n c0) -> well_indexed (n c0) h ->
  runs c0 h = Ok (c, s, outs) ->
  n c = n c0 /\ queue_size c = queue_size c0 /\
  max_interval c = interval_after cb c0 outs /\ scale c = scale_after cb c0 outs /\
  forall i, bound c i = bound_after cb c0 outs i.
Proof.
  intros Hn Hq Hcb HI Hr.
  destruct (run_cb_accounting stamp cb c0 Hcb Hn Hq h HI) as (c' & s' & o' & Hr' & [F1 F2 F3 F4 F5] & _).
  rewrite Hr in Hr'. injection Hr' as <- <- <-. auto.
Qed.

(** Every set is complete; per input, what is held is the most recent part of what was
    received and at most queue_size messages, what was output comes from the part before. *)
Theorem C120_callbacks_keep_most_recent c0 (h : list (nat * E)) c s outs :
  (0 < n c0)%nat -> (0 < queue_size c0)%nat -> only_sets cb (n c0) -> well_indexed (n c0) h ->
  runs c0 h = Ok (c, s, outs) ->
  Forall (fun X => length X = n c0) outs /\
  forall i, (i < n c0)%nat ->
    (length (nth i (pending s) []) <= queue_size c0)%nat /\
    exists gone, stream i h = gone ++ nth i (pending s) [] /\ subseq (column i outs) gone.
Proof.
  intros Hn Hq Hcb HI Hr.
  destruct (run_cb_accounting stamp cb c0 Hcb Hn Hq h HI) as (c' & s' & o' & Hr' & _ & HInv & HF & HC).
  rewrite Hr in Hr'. injection Hr' as <- <- <-. split; auto. intros i Hi.
  rewrite (nth_pending c) by apply (inv_wf _ _ _ HInv). fold (pend s i).
  destruct (HC i Hi) as ((d & H1 & H2) & H3). eauto.
Qed.

(** Whatever the stamps: a set spans at most the maximum interval in force since the set before it
    was output, as long as a duration does not get shorter when it is multiplied by 1 + penalty. *)
Theorem C120_span_within_the_interval_in_force c0 (h : list (nat * E)) c s outs k X :
  (0 < n c0)%nat -> (0 < queue_size c0)%nat -> only_sets cb (n c0) -> well_indexed (n c0) h ->
  (forall prior, lengthens (scale_after cb c0 prior)) ->
  runs c0 h = Ok (c, s, outs) -> nth_error outs k = Some X ->
  span stamp X <= interval_after cb c0 (firstn k outs).
Proof.
  intros Hn Hq Hcb HI HL Hr. apply (run_cb_span stamp cb c0 Hcb Hn Hq h c s outs HI HL Hr k X).
Qed.

(** For streams in time order that respect all bounds in force: every set is optimal for the
    parameters in force since the set before it was output. *)
Theorem C120_each_set_optimal c0 (h : list (nat * E)) c s outs F tol num den :
  (0 < n c0)%nat -> (0 < queue_size c0)%nat -> only_sets cb (n c0) -> well_indexed (n c0) h ->
  (forall prior, scaling (tol prior) (num prior) (den prior) (scale_after cb c0 prior)) ->
  (forall prior, respects stamp (n c0) (bound_after cb c0 prior) F) ->
  (forall i, (i < n c0)%nat -> prefix (stream i h) (F i)) ->
  runs c0 h = Ok (c, s, outs) ->
  each_set_after (n c0) (fun prior base x X =>
    optimal_set stamp (n c0) F (num prior) (den prior) (tol prior) base x X) outs.
Proof.
  intros Hn Hq Hcb HI SC HF HC Hr.
  destruct (run_cb_J stamp cb c0 Hcb Hn Hq tol num den SC F HF False h HI) as (c' & s' & o' & Hr' & _ & _ & HJ).
  rewrite Hr in Hr'. injection Hr' as <- <- <-.
  destruct (HJ HC ltac:(tauto)) as (b & Hb & _). exists b.
  clear - Hb. induction Hb as [|prior base x X outs base' HX Hb IH]; econstructor; eauto. apply HX.
Qed.

(** If moreover no message was dropped because of a full queue: every set is exactly the one that
    a search with the parameters in force since the set before it finds. *)
Theorem C120_each_set_found c0 (h : list (nat * E)) c s outs F tol num den :
  (0 < n c0)%nat -> (0 < queue_size c0)%nat -> only_sets cb (n c0) -> well_indexed (n c0) h ->
  (forall prior, scaling (tol prior) (num prior) (den prior) (scale_after cb c0 prior)) ->
  (forall prior, respects stamp (n c0) (bound_after cb c0 prior) F) ->
  (forall i, (i < n c0)%nat -> prefix (stream i h) (F i)) -> roomy cb stamp c0 h ->
  runs c0 h = Ok (c, s, outs) ->
  each_set_after (n c0) (fun prior base x X =>
    next_set stamp (n c0) F (num prior) (den prior) (interval_after cb c0 prior) (tol prior) base x X /\
    found_set stamp (n c0) F (interval_after cb c0 prior) (scale_after cb c0 prior) base x X) outs.
Proof.
  intros Hn Hq Hcb HI SC HF HC Hno Hr.
  destruct (run_cb_J stamp cb c0 Hcb Hn Hq tol num den SC F HF True h HI) as (c' & s' & o' & Hr' & _ & _ & HJ).
  rewrite Hr in Hr'. injection Hr' as <- <- <-.
  destruct (HJ HC ltac:(auto)) as (b & Hb & _). exists b.
  clear - Hb. induction Hb as [|prior base x X outs base' HX Hb IH]; econstructor; eauto. now apply HX.
Qed.

(** So the sets do not depend on how the streams are interleaved, although the parameters change
    as sets are output: of two runs with the same callback one outputs what the other does and
    possibly more. *)
Theorem C120_order_of_arrival_is_irrelevant c0 (h1 h2 : list (nat * E)) c1 s1 o1 c2 s2 o2 F tol num den :
  (0 < n c0)%nat -> (0 < queue_size c0)%nat -> only_sets cb (n c0) ->
  well_indexed (n c0) h1 -> well_indexed (n c0) h2 ->
  (forall prior, scaling (tol prior) (num prior) (den prior) (scale_after cb c0 prior)) ->
  (forall prior, respects stamp (n c0) (bound_after cb c0 prior) F) ->
  (forall i, (i < n c0)%nat -> prefix (stream i h1) (F i)) ->
  (forall i, (i < n c0)%nat -> prefix (stream i h2) (F i)) ->
  roomy cb stamp c0 h1 -> roomy cb stamp c0 h2 ->
  runs c0 h1 = Ok (c1, s1, o1) -> runs c0 h2 = Ok (c2, s2, o2) ->
  prefix o1 o2 \/ prefix o2 o1.
Proof.
  intros Hn Hq Hcb HI1 HI2 SC HF HC1 HC2 Hno1 Hno2 Hr1 Hr2.
  destruct (C120_each_set_found c0 h1 c1 s1 o1 F tol num den) as (b1 & B1); auto.
  destruct (C120_each_set_found c0 h2 c2 s2 o2 F tol num den) as (b2 & B2); auto.
  clear - B1 B2.
  assert (forall i, (i < n c0)%nat -> (fun _ : nat => 0%nat) i = (fun _ : nat => 0%nat) i) as Heq by reflexivity.
  revert B1 B2 Heq. set (base := fun _ : nat => 0%nat) at 1 3. set (base2 := fun _ : nat => 0%nat).
  clearbody base base2. generalize (@nil (list E)) as prior. revert o2 base base2.
  induction o1 as [|X o1 IH]; intros o2 base base2 prior H1 H2 Heq.
  - left. exists o2. reflexivity.
  - destruct o2 as [|X2 o2]; [right; exists (X :: o1); reflexivity|].
    inversion H1 as [|? ? x ? ? ? (_ & HX) H1']; subst. inversion H2 as [|? ? x2 ? ? ? (_ & HX2) H2']; subst.
    assert (found_set stamp (n c0) F (interval_after cb c0 prior) (scale_after cb c0 prior) base x2 X2) as HX2'.
    { eapply found_set_ext; [|exact HX2]. intros; symmetry; auto. }
    destruct (found_set_det _ _ _ _ _ _ _ _ _ _ HX HX2') as (-> & Hx).
    destruct (IH o2 (fun i => S (x i)) (fun i => S (x2 i)) (prior ++ [X2]) H1' H2'
                ltac:(intros i Hi; cbn; rewrite (Hx i Hi); reflexivity)) as [(r & ->)|(r & ->)].
    + left. exists r. reflexivity.
    + right. exists r. reflexivity.
Qed.
End Props.

(* ------------------------------------------------------------------ *)
(** Concrete cases; the messages are their stamps. *)
Notation id := (fun z : Z => z).
Definition cfg_ex : cfg := mkCfg 2 10 100 (scale_by 11 10) (fun _ => 0).
(** After the first set the callback lowers the maximum interval to 5, after the second one it
    sets the age penalty and a lower bound. *)
Definition cb_ex (outs : list (list Z)) : list (op Z) :=
  match length outs with
  | 1%nat => [SetMaxInterval 50; SetMaxInterval 5]
  | 2%nat => [SetAgePenalty (mkPenalty true (scale_by 12 10)); SetLowerBound 0 3]
  | _ => []
  end.
Definition result (cb : list (list Z) -> list (op Z)) (h : list (nat * Z)) : res (Z * Z * list (list Z)) :=
  do '(c, _, o) <- run_cb id cb cfg_ex (init cfg_ex) [] h; Ok (max_interval c, bound c 0, o).
Definition a (z : Z) : nat * Z := (0%nat, z).
Definition b (z : Z) : nat * Z := (1%nat, z).
Definition ex_h : list (nat * Z) := [a 0; a 20; a 50; a 70; a 80; b 10; b 30; b 52; b 71; b 81].
Definition ex_h2 : list (nat * Z) := [a 0; b 10; a 20; b 30; a 50; b 52; a 70; b 71; a 80; b 81].

(** The pair (20, 30) is not output once the maximum interval is 5. *)
Example C120_callbacks_matter :
  result cb_ex ex_h = Ok (5, 3, [[0; 10]; [50; 52]; [70; 71]; [80; 81]]) /\
  result cb_ex ex_h2 = result cb_ex ex_h /\
  result (fun _ => []) ex_h = Ok (100, 0, [[0; 10]; [20; 30]; [50; 52]; [70; 71]]) /\
  result (fun _ => [Add 0 7]) ex_h = Err Deadlock.
Proof. vm_compute. auto. Qed.

(** The new interval is in force for the rest of the addition that outputs the first set.  Set right
    after that addition it comes too late for the pair (20, 30). *)
Example C120_takes_effect_at_once :
  result cb_ex [b 10; b 30; a 0; a 20; a 41] = Ok (5, 0, [[0; 10]]) /\
  exists c s, ApproxSet_Model.run id cfg_ex (init cfg_ex)
      [Add 1 10; Add 1 30; Add 0 0; Add 0 20; SetMaxInterval 5; Add 0 41] = Ok (c, s, [[0; 10]; [20; 30]]).
Proof. split; [vm_compute; reflexivity|]. eexists _, _. vm_compute. reflexivity. Qed.

Lemma made_ex prior : made cb_ex prior =
  match length prior with
  | 0%nat => []
  | 1%nat => [SetMaxInterval 50; SetMaxInterval 5]
  | _ => [SetMaxInterval 50; SetMaxInterval 5; SetAgePenalty (mkPenalty true (scale_by 12 10)); SetLowerBound 0 3]
  end.
Proof.
  unfold made.
  transitivity (flat_map (fun k => cb_ex (repeat [] (S k))) (seq 0 (length prior))).
  - assert (forall l, (forall k, In k l -> (k < length prior)%nat) ->
      flat_map (fun k => cb_ex (firstn (S k) prior)) l = flat_map (fun k => cb_ex (repeat [] (S k))) l) as H.
    { induction l as [|k l IH]; intros Hl; [reflexivity|]. cbn [flat_map]. rewrite IH by (intros; apply Hl; now right).
      f_equal. unfold cb_ex. rewrite firstn_length, repeat_length. specialize (Hl k (or_introl eq_refl)).
      replace (Nat.min (S k) (length prior)) with (S k) by lia. reflexivity. }
    apply H. intros k Hk. apply in_seq in Hk. lia.
  - destruct (length prior) as [|[|m]]; [reflexivity|reflexivity|].
    cbn [seq flat_map]. replace (flat_map (fun k => cb_ex (repeat [] (S k))) (seq 2 m)) with (@nil (op Z)); [reflexivity|].
    assert (forall m j, (2 <= j)%nat -> flat_map (fun k => cb_ex (repeat [] (S k))) (seq j m) = []) as H.
    { induction m0 as [|m0 IH]; intros j Hj; [reflexivity|]. cbn [seq flat_map]. rewrite IH by lia.
      destruct j as [|[|j]]; [lia|lia|]. reflexivity. }
    symmetry. apply H. lia.
Qed.

Fixpoint roomy_check cb (c : cfg) (s : state Z) (seen : list (list Z)) (h : list (nat * Z)) : bool :=
  match h with
  | [] => true
  | (i, e) :: h' =>
      match add_process_cb id cb c s seen i e with
      | Ok (_, s2, _) => Nat.leb (length (nth i (pending s2) [])) 10
      | Err _ => true
      end &&
      match add_cb id cb c s seen (i, e) with
      | Ok (c', s', o') => roomy_check cb c' s' (seen ++ o') h'
      | Err _ => true
      end
  end.
Lemma roomy_check_ok cb h : roomy_check cb cfg_ex (init cfg_ex) [] h = true -> roomy cb id cfg_ex h.
Proof.
  unfold roomy.
  assert (forall h c s seen, roomy_check cb c s seen h = true ->
    forall h1 i e h2, h = h1 ++ (i, e) :: h2 ->
    forall c1 s1 o1 c2 s2 o2, run_cb id cb c s seen h1 = Ok (c1, s1, o1) ->
    add_process_cb id cb c1 s1 (seen ++ o1) i e = Ok (c2, s2, o2) ->
    (length (nth i (pending s2) []) <= 10)%nat) as H; [|intros HR h1 i e h2 Eh c1 s1 o1 c2 s2 o2 R1 R2; eapply (H h cfg_ex (init cfg_ex) []); eauto].
  clear h. induction h as [|[i e] h IH]; intros c s seen H h1 j x h2 Eh c1 s1 o1 c2 s2 o2 R1 R2.
  - destruct h1; discriminate.
  - cbn [roomy_check] in H. apply andb_prop in H as (H1 & H2).
    destruct h1 as [|y h1]; injection Eh as; subst.
    + injection R1 as <- <- <-. rewrite app_nil_r in R2. rewrite R2 in H1. now apply Nat.leb_le.
    + cbn [run_cb] in R1. destruct (add_cb id cb c s seen (i, e)) as [((c' & s') & o')|]; [|discriminate]. cbn [bind] in R1.
      destruct (run_cb id cb c' s' (seen ++ o') h1) as [((c3 & s3) & o3)|] eqn:E1; [|discriminate]. injection R1 as <- <- <-.
      rewrite app_assoc in R2. eapply (IH c' s' (seen ++ o') H2); eauto.
Qed.

(** The hypotheses of the theorems are met by this callback and these streams. *)
Definition ex_F (i : nat) : list Z := match i with O => [0; 20; 50; 70; 80; 90] | _ => [10; 30; 52; 71; 81; 95] end.
Example C120_hypotheses_met :
  only_sets cb_ex 2 /\ well_indexed 2 ex_h /\ well_indexed 2 ex_h2 /\
  (forall prior, lengthens (scale_after cb_ex cfg_ex prior)) /\
  (forall prior, scaling 0 (match length prior with 0%nat | 1%nat => 11 | _ => 12 end) 10 (scale_after cb_ex cfg_ex prior)) /\
  (forall prior, respects id 2 (bound_after cb_ex cfg_ex prior) ex_F) /\
  (forall i, (i < 2)%nat -> prefix (stream i ex_h) (ex_F i) /\ prefix (stream i ex_h2) (ex_F i)) /\
  roomy cb_ex id cfg_ex ex_h /\ roomy cb_ex id cfg_ex ex_h2 /\
  interval_after cb_ex cfg_ex [[0; 10]] = 5 /\ interval_after cb_ex cfg_ex [] = 100 /\
  adds_first (fun _ : list (list Z) => [Add 0 7]).
Proof.
  split; [|split; [|split; [|split; [|split; [|split; [|split; [|split; [|split; [|split; [|split]]]]]]]]]].
  - intros outs. unfold cb_ex. destruct (length outs) as [|[|[|k]]]; cbn; (split; [repeat constructor; cbn; lia|reflexivity]).
  - intros i e H. cbn in H. repeat (destruct H as [H|H]; [injection H as <- <-; cbn; lia|]). contradiction.
  - intros i e H. cbn in H. repeat (destruct H as [H|H]; [injection H as <- <-; cbn; lia|]). contradiction.
  - intros prior. unfold scale_after. rewrite made_ex. destruct (length prior) as [|[|k]]; apply ApproxSet_Props.scale_by_lengthens; lia.
  - intros prior. unfold scale_after. rewrite made_ex.
    destruct (length prior) as [|[|k]]; [apply (Approx_Props.scale_by_scaling 11 10); lia..|apply (Approx_Props.scale_by_scaling 12 10); lia].
  - intros prior i Hi. unfold bound_after. rewrite made_ex.
    destruct i as [|[|i]]; [| |lia]; destruct (length prior) as [|[|k]]; (split; [cbn; lia|]); apply Approx_Props.spaced_check; reflexivity.
  - intros [|[|i]] Hi; [| |lia]; split; eexists; reflexivity.
  - apply roomy_check_ok. vm_compute. reflexivity.
  - apply roomy_check_ok. vm_compute. reflexivity.
  - reflexivity.
  - reflexivity.
  - intros outs. eexists _, _, _. reflexivity.
Qed.

Print Assumptions C120_callbacks_never_fail.
Print Assumptions C120_adding_in_a_callback_deadlocks.
Print Assumptions C120_no_calls_no_difference.
Print Assumptions C120_parameters_in_force.
Print Assumptions C120_callbacks_keep_most_recent.
Print Assumptions C120_span_within_the_interval_in_force.
Print Assumptions C120_each_set_optimal.
Print Assumptions C120_each_set_found.
Print Assumptions C120_order_of_arrival_is_irrelevant.
