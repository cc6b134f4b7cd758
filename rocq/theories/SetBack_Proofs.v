(** Proofs about ApproximateTime whose output callbacks call its setters. *)
From Coq Require Import List Arith ZArith Lia Bool.
From Verif Require Import Base Trace Approx_Model Approx_Spec Approx_Proofs Approx_Opt.
From Verif Require Import ApproxSet_Model ApproxSet_Spec ApproxSet_Proofs.
From Verif Require Import SetBack_Model SetBack_Spec.
Import ListNotations.
Import Approx_Model (init, run, add).
Local Open Scope Z_scope.

Lemma last_app {A} (l1 l2 : list A) d : last (l1 ++ l2) d = last l2 (last l1 d).
Proof.
  revert d; induction l1 as [|x l1 IH]; intros d; [reflexivity|].
  assert (forall (l : list A) y e, last (y :: l) e = last l y) as HC.
  { clear. intros l; induction l as [|z l IH]; intros y e; [reflexivity|].
    transitivity (last (z :: l) e); [reflexivity|]. rewrite !IH. reflexivity. }
  cbn [app]. rewrite !HC. apply IH.
Qed.

Section P.
Context {E : Type} (stamp : E -> Z).
Variable cb : list (list E) -> list (op E).
Notation state := (state E).
Notation made := (made cb).

Lemma made_snoc outs X : made (outs ++ [X]) = made outs ++ cb (outs ++ [X]).
Proof.
  unfold SetBack_Spec.made. rewrite app_length. cbn [length]. rewrite Nat.add_1_r, seq_S, flat_map_app.
  cbn [flat_map Nat.add]. rewrite app_nil_r. f_equal.
  - assert (forall m, (m <= length outs)%nat ->
      flat_map (fun k => cb (firstn (S k) (outs ++ [X]))) (seq 0 m) =
      flat_map (fun k => cb (firstn (S k) outs)) (seq 0 m)) as H; [|apply H; lia].
    induction m as [|m IH]; intros Hm; [reflexivity|].
    rewrite seq_S, !flat_map_app, IH by lia. f_equal. cbn [flat_map Nat.add].
    rewrite firstn_app. replace (S m - length outs)%nat with 0%nat by lia.
    change (firstn 0 [X]) with (@nil (list E)). now rewrite (app_nil_r (firstn (S m) outs)).
  - rewrite firstn_all2; [reflexivity|]. rewrite app_length. cbn [length]. lia.
Qed.

Variable c0 : cfg.

(** [c] are the parameters in force once [outs] were output. *)
Record follows (c : cfg) (outs : list (list E)) : Prop := {
  fo_n : n c = n c0;
  fo_q : queue_size c = queue_size c0;
  fo_m : max_interval c = interval_after cb c0 outs;
  fo_s : scale c = scale_after cb c0 outs;
  fo_b : forall i, bound c i = bound_after cb c0 outs i
}.

Lemma follows_start : follows c0 [].
Proof. split; reflexivity. Qed.

Lemma calls_ok (os : list (op E)) : forall c,
  Forall (allowed (n c)) os -> adds os = [] ->
  exists c', calls c os = Ok c' /\ n c' = n c /\ queue_size c' = queue_size c /\
    max_interval c' = last (intervals_set os) (max_interval c) /\
    scale c' = last (map factor (penalties_set os)) (scale c) /\
    forall i, bound c' i = last (bounds_set i os) (bound c i).
Proof.
  induction os as [|o os IH]; intros c HA Hadd.
  - exists c. cbn. auto 6.
  - inversion HA as [|? ? Ho HA']; subst.
    assert (exists c1, call c o = Ok c1 /\ n c1 = n c /\ queue_size c1 = queue_size c /\ adds os = [] /\
      max_interval c1 = last (intervals_set [o]) (max_interval c) /\
      scale c1 = last (map factor (penalties_set [o])) (scale c) /\
      forall i, bound c1 i = last (bounds_set i [o]) (bound c i)) as (c1 & E1 & En & Eq & Had & Em & Es & Eb).
    { destruct o as [i e|p|i b|d]; cbn in *; [discriminate| | |].
      - unfold set_age_penalty. rewrite Ho. eexists. split; [reflexivity|]. cbn. auto 7.
      - destruct Ho as (Hi & Hb). unfold set_lower_bound. destruct (Z.ltb_spec b 0); [lia|].
        destruct (Nat.ltb_spec i (n c)); [|lia]. eexists. split; [reflexivity|]. cbn. repeat (split; auto).
        intros j. rewrite Nat.eqb_sym. now destruct (Nat.eqb_spec i j).
      - unfold set_max_interval. destruct (Z.ltb_spec d 0); [lia|].
        eexists. split; [reflexivity|]. cbn. auto 7. }
    rewrite <- En in HA'. destruct (IH c1 HA' Had) as (c2 & E2 & I1 & I2 & I3 & I4 & I5).
    exists c2. cbn [calls]. rewrite E1. cbn [bind]. split; [exact E2|].
    split; [congruence|]. split; [congruence|].
    change (o :: os) with ([o] ++ os). unfold intervals_set, penalties_set in *.
    rewrite !flat_map_app, map_app, !last_app.
    split; [rewrite I3, Em; reflexivity|]. split; [rewrite I4, Es; reflexivity|].
    intros i. unfold bounds_set in *. rewrite flat_map_app, last_app, I5, Eb. reflexivity.
Qed.

Hypothesis Hcb : only_sets cb (n c0).
Hypothesis Hn : (0 < n c0)%nat.
Hypothesis Hq : (0 < queue_size c0)%nat.

Lemma signal_ok c seen o : follows c seen -> (o = [] \/ exists X, o = [X]) ->
  exists c1, signal_cb cb c seen o = Ok c1 /\ follows c1 (seen ++ o).
Proof.
  intros [F1 F2 F3 F4 F5] [->|(X & ->)].
  - exists c. split; [reflexivity|]. rewrite app_nil_r. split; auto.
  - destruct (Hcb (seen ++ [X])) as (HA & Hadd). rewrite <- F1 in HA.
    destruct (calls_ok _ c HA Hadd) as (c1 & E1 & I1 & I2 & I3 & I4 & I5).
    exists c1. split; [exact E1|].
    unfold interval_after, scale_after, bound_after in *.
    split; [congruence|congruence| | |].
    + unfold interval_after. rewrite made_snoc. unfold intervals_set. rewrite flat_map_app, last_app.
      unfold intervals_set in F3, I3. congruence.
    + unfold scale_after. rewrite made_snoc. unfold penalties_set. rewrite flat_map_app, map_app, last_app.
      unfold penalties_set in F4, I4. congruence.
    + intros i. unfold bound_after. rewrite made_snoc. unfold bounds_set. rewrite flat_map_app, last_app.
      unfold bounds_set in F5, I5. rewrite I5, F5. reflexivity.
Qed.

Lemma WF_cfg c c' (s : state) : n c' = n c -> WF c s -> WF c' s.
Proof. intros H [W1 W2 W3 W4]. split; rewrite ?H; auto. Qed.
Lemma PInv_cfg c c' (s : state) : n c' = n c -> PInv stamp c s -> PInv stamp c' s.
Proof. intros H HP. unfold PInv, has_candidate in *. rewrite H. exact HP. Qed.

Lemma step_kind_out c s hs ei et si st s' o : step_kind stamp c s hs ei et si st s' o ->
  o = [] \/ (exists X, o = [X]) /\ pivot s' = None.
Proof. intros HK. destruct HK; auto. right. split; eauto. Qed.

(** Iterations with the calls in between *)
Inductive csteps : cfg -> state -> list (list E) -> list (list E) -> cfg -> state -> Prop :=
| cs_nil c s seen : csteps c s seen [] c s
| cs_cons c s seen hs ei et si st s1 o1 c1 o2 c2 s2 :
    follows c seen -> WF c s -> PInv stamp c s -> num s = n c ->
    heads c s hs -> extremes stamp hs ei et si st -> step_kind stamp c s hs ei et si st s1 o1 ->
    signal_cb cb c seen o1 = Ok c1 -> follows c1 (seen ++ o1) ->
    csteps c1 s1 (seen ++ o1) o2 c2 s2 -> csteps c s seen (o1 ++ o2) c2 s2.

Lemma process_csteps t0 : forall fuel c s seen,
  follows c seen -> WF c s -> PInv stamp c s -> (total (pending s) <= t0)%nat -> (msr s t0 < fuel)%nat ->
  exists c' s' o, process_cb stamp cb fuel c s seen = Ok (c', s', o) /\ csteps c s seen o c' s' /\
    follows c' (seen ++ o) /\ WF c' s' /\ PInv stamp c' s' /\ (num s' < n c')%nat.
Proof.
  induction fuel as [|fuel IH]; intros c s seen HFo HW HP Ht Hm; [lia|].
  cbn [process_cb].
  assert (0 < n c)%nat as Hnc by (rewrite (fo_n _ _ HFo); auto).
  destruct (Nat.eqb_spec (num s) (n c)) as [Hnum|Hnum].
  - destruct (iteration_cases stamp c s HW HP Hnc Hnum)
      as (hs & ei & et & si & st & s1 & o1 & HH & HX & -> & HS).
    destruct (step_inv stamp c _ _ _ _ _ _ _ _ HW HP Hnc HH HX HS) as (HW1 & HP1).
    destruct (step_measure stamp c _ _ _ _ _ _ _ _ t0 HW HP Hnc Hnum HH HX HS Ht) as (HT1 & HM1).
    assert (o1 = [] \/ exists X, o1 = [X]) as Ho by (destruct (step_kind_out _ _ _ _ _ _ _ _ _ HS) as [|(? & _)]; auto).
    destruct (signal_ok c seen o1 HFo Ho) as (c1 & E1 & HF1).
    assert (n c1 = n c) as En by (rewrite (fo_n _ _ HF1), (fo_n _ _ HFo); reflexivity).
    destruct (IH c1 s1 (seen ++ o1) HF1 (WF_cfg _ _ _ En HW1) (PInv_cfg _ _ _ En HP1) ltac:(lia) ltac:(lia))
      as (c' & s' & o & E2 & HSt & R1 & R2 & R3 & R4).
    cbn [bind]. rewrite E1. cbn [bind]. rewrite E2. cbn [bind].
    exists c', s', (o1 ++ o). split; auto. split; [econstructor; eauto|].
    rewrite app_assoc. auto.
  - exists c, s, []. split; auto. split; [constructor|]. rewrite app_nil_r. repeat (split; auto).
    pose proof (count_le (deques s)). destruct HW. lia.
Qed.

Lemma process_cb_total c s seen : follows c seen -> WF c s -> PInv stamp c s ->
  exists c' s' o, process_cb stamp cb (fuel_for s) c s seen = Ok (c', s', o) /\ csteps c s seen o c' s' /\
    follows c' (seen ++ o) /\ WF c' s' /\ PInv stamp c' s' /\ (num s' < n c')%nat.
Proof.
  intros HFo HW HP. apply (process_csteps (total (pending s))); auto.
  unfold fuel_for, msr. pose proof (pending_total c s HW). nia.
Qed.

Lemma add_process_cb_cases c seen i e s :
  follows c seen -> Inv stamp c s -> (i < n c)%nat ->
  exists c1 s1 o1, add_process_cb stamp cb c s seen i e = Ok (c1, s1, o1) /\
    follows c1 (seen ++ o1) /\ Inv stamp c1 s1 /\
    ((exists w, c1 = c /\ s1 = set_warned w (push i e s) /\ o1 = []) \/ csteps c (push i e s) seen o1 c1 s1).
Proof.
  intros HFo [HW HP Hnum] Hi. pose proof HW as [W1 W2 W3 W4].
  pose proof (push_WF c i e s HW) as HW1. pose proof (push_PInv stamp c i e s HW Hi HP) as HP1.
  pose proof (count_upd (deques s) i (dq s i ++ [e]) ltac:(lia)) as HC.
  unfold add_process_cb. rewrite (nth_error_nth' _ []) by lia. fold (dq s i).
  assert (set_queues (upd i (dq s i ++ [e]) (deques s))
             (if is_nil (dq s i) then S (num s) else num s) (past s) s = push i e s) as ->.
  { unfold push. f_equal. fold (dq s i) in HC. unfold nz in HC.
    destruct (dq s i); cbn [is_nil app] in *; lia. }
  destruct (is_nil (dq s i)) eqn:En.
  - destruct (Nat.eqb_spec (num (push i e s)) (n c)) as [Hf|Hf].
    + destruct (process_cb_total c (push i e s) seen HFo HW1 HP1) as (c' & s' & o & -> & HS & R0 & R1 & R2 & R3).
      exists c', s', o. split; auto. split; auto. split; [split; auto|]. auto.
    + exists c, (push i e s), []. split; auto. rewrite app_nil_r. split; auto. split.
      * split; auto. pose proof (count_le (deques (push i e s))). destruct HW1. lia.
      * right. constructor.
  - exists c, (check_inter_message_bound stamp c i (push i e s)), []. split; auto.
    assert (exists w, check_inter_message_bound stamp c i (push i e s) = set_warned w (push i e s)) as (w & ->).
    { unfold check_inter_message_bound. destruct (nth i (warned _) false).
      - exists (warned (push i e s)). destruct (push i e s); reflexivity.
      - destruct (bound_violated _ _ _ _ _).
        + eexists. unfold set_warned. reflexivity.
        + exists (warned (push i e s)). destruct (push i e s); reflexivity. }
    rewrite app_nil_r. split; auto. split; [|left; eauto].
    split; [destruct HW1; split; auto|exact HP1|].
    cbn. fold (dq s i) in HC. unfold nz in HC. rewrite En in HC.
    destruct (dq s i); cbn [is_nil app] in *; [discriminate|]. lia.
Qed.

Lemma add_overflow_cb_cases c seen i s :
  follows c seen -> Inv stamp c s -> (i < n c)%nat ->
  exists c1 s1 o1, add_overflow_cb stamp cb c s seen i = Ok (c1, s1, o1) /\
    follows c1 (seen ++ o1) /\ Inv stamp c1 s1 /\
    (((length (pend s i) <= queue_size c)%nat /\ c1 = c /\ s1 = s /\ o1 = []) \/
     ((queue_size c < length (pend s i))%nat /\ csteps c (drop i s) seen o1 c1 s1)).
Proof.
  intros HFo HI Hi. pose proof HI as [HW HP Hnum]. pose proof HW as [W1 W2 W3 W4].
  assert (0 < queue_size c)%nat as Hqc by (rewrite (fo_q _ _ HFo); auto).
  unfold add_overflow_cb. fold (dq s i) (pa s i).
  assert (length (pend s i) = length (dq s i) + length (pa s i))%nat as HL
    by (unfold pend; rewrite app_length; lia).
  destruct (Nat.ltb_spec (queue_size c) (length (dq s i) + length (pa s i))) as [Hov|Hok].
  2: { exists c, s, []. rewrite app_nil_r. do 3 (split; auto). left. split; [lia|]. auto. }
  cbn [recover_all set_queues deques num past candidate cstart cend pivot ptime dropped warned].
  fold (pending s). rewrite (nth_pending c) by auto. fold (pend s i).
  destruct (pend s i) as [|x q] eqn:Epend; [cbn in HL; lia|].
  assert (count_nonempty (pending s) = count_nonempty (upd i q (pending s))) as EC.
  { pose proof (count_upd (pending s) i q ltac:(rewrite (pending_length c); auto)) as HC.
    rewrite (nth_pending c) in HC by auto. fold (pend s i) in HC. rewrite Epend in HC.
    unfold nz in HC. destruct q; [cbn in *; lia|]. cbn [is_nil] in HC. lia. }
  pose proof (drop_WF c i s HW) as HWd. pose proof (drop_PInv stamp c i s HW Hi) as HPd.
  cbv zeta. rewrite EC.
  destruct (pivot s) as [p|] eqn:Ep.
  - cbn [deques num past candidate cstart cend pivot ptime dropped warned].
    assert (mkState (upd i q (pending s)) (count_nonempty (upd i q (pending s)))
              (map (fun _ => []) (past s)) None (cstart s) (cend s) None (ptime s)
              (upd i true (dropped s)) (warned s) = drop i s) as ->.
    { unfold drop. rewrite Epend, Ep. reflexivity. }
    destruct (process_cb_total c (drop i s) seen HFo HWd HPd) as (c' & s' & o & -> & HS & R0 & R1 & R2 & R3).
    exists c', s', o. split; [reflexivity|]. split; [exact R0|]. split; [split; auto|].
    right. split; [lia|exact HS].
  - assert (mkState (upd i q (pending s)) (count_nonempty (upd i q (pending s)))
              (map (fun _ => []) (past s)) (candidate s) (cstart s) (cend s) None (ptime s)
              (upd i true (dropped s)) (warned s) = drop i s) as ->.
    { unfold drop. rewrite Epend, Ep. reflexivity. }
    exists c, (drop i s), []. rewrite app_nil_r. split; auto. split; auto. split.
    + split; auto. unfold drop. cbn [num]. rewrite Epend. cbn [tl]. rewrite <- EC.
      assert (pending s = deques s) as ->; [|lia].
      unfold PInv in HP. rewrite Ep in HP.
      apply (list_eq_nth []); [rewrite (pending_length c); auto|].
      intros j _. rewrite (nth_pending c) by auto. rewrite HP. reflexivity.
    + right. split; [lia|]. constructor.
Qed.

Lemma run_cb_snoc c s seen h x c1 s1 o1 :
  run_cb stamp cb c s seen h = Ok (c1, s1, o1) ->
  run_cb stamp cb c s seen (h ++ [x]) =
  do '(c2, s2, o2) <- add_cb stamp cb c1 s1 (seen ++ o1) x; Ok (c2, s2, o1 ++ o2).
Proof.
  revert c s seen c1 s1 o1; induction h as [|y h IH]; intros c s seen c1 s1 o1 H; cbn [app run_cb] in *.
  - injection H as <- <- <-. rewrite app_nil_r.
    destruct (add_cb stamp cb c s seen x) as [((c2 & s2) & o2)|]; cbn; auto. now rewrite app_nil_r.
  - destruct (add_cb stamp cb c s seen y) as [((c2 & s2) & o2)|]; cbn [bind] in *; [|discriminate].
    destruct (run_cb stamp cb c2 s2 (seen ++ o2) h) as [((c3 & s3) & o3)|] eqn:Er; cbn [bind] in *; [|discriminate].
    injection H as <- <- <-. rewrite (IH _ _ _ _ _ _ Er). rewrite <- app_assoc.
    destruct (add_cb stamp cb c3 s3 _ x) as [((c4 & s4) & o4)|]; cbn [bind]; auto. now rewrite app_assoc.
Qed.

(** Induction principle for runs *)
Lemma cb_invariant (P : list (nat * E) -> cfg -> state -> list (list E) -> Prop) :
  P [] c0 (init c0) [] ->
  (forall h c s outs i e c1 s1 o1 c2 s2 o2,
     run_cb stamp cb c0 (init c0) [] h = Ok (c, s, outs) ->
     follows c outs -> Inv stamp c s -> P h c s outs -> (i < n c)%nat ->
     add_process_cb stamp cb c s outs i e = Ok (c1, s1, o1) ->
     add_overflow_cb stamp cb c1 s1 (outs ++ o1) i = Ok (c2, s2, o2) ->
     follows c1 (outs ++ o1) -> follows c2 (outs ++ o1 ++ o2) ->
     Inv stamp c1 s1 -> Inv stamp c2 s2 ->
     ((exists w, c1 = c /\ s1 = set_warned w (push i e s) /\ o1 = []) \/ csteps c (push i e s) outs o1 c1 s1) ->
     (((length (pend s1 i) <= queue_size c0)%nat /\ c2 = c1 /\ s2 = s1 /\ o2 = []) \/
      ((queue_size c0 < length (pend s1 i))%nat /\ csteps c1 (drop i s1) (outs ++ o1) o2 c2 s2)) ->
     P (h ++ [(i, e)]) c2 s2 (outs ++ o1 ++ o2)) ->
  forall h, well_indexed (n c0) h ->
  exists c s outs, run_cb stamp cb c0 (init c0) [] h = Ok (c, s, outs) /\
    follows c outs /\ Inv stamp c s /\ P h c s outs.
Proof.
  intros H0 HA. induction h as [|[i e] h IH] using rev_ind; intros HI.
  - exists c0, (init c0), []. split; auto. split; [apply follows_start|]. split; [now apply init_Inv|auto].
  - destruct IH as (c & s & outs & Hr & HFo & HInv & HP).
    { intros j x Hj. apply (HI j x). apply in_or_app. auto. }
    assert (i < n c)%nat as Hi.
    { rewrite (fo_n _ _ HFo). apply (HI i e). apply in_or_app. right. now left. }
    destruct (add_process_cb_cases c outs i e s HFo HInv Hi) as (c1 & s1 & o1 & E1 & F1 & J1 & A).
    assert (i < n c1)%nat as Hi1 by (rewrite (fo_n _ _ F1), <- (fo_n _ _ HFo); auto).
    destruct (add_overflow_cb_cases c1 (outs ++ o1) i s1 F1 J1 Hi1) as (c2 & s2 & o2 & E2 & F2 & J2 & B).
    rewrite <- app_assoc in F2. rewrite (fo_q _ _ F1) in B.
    exists c2, s2, (outs ++ o1 ++ o2). split.
    { rewrite (run_cb_snoc _ _ _ _ _ _ _ _ Hr). unfold add_cb. cbn [fst snd app]. rewrite E1. cbn [bind].
      rewrite E2. reflexivity. }
    split; auto. split; auto.
    exact (HA h c s outs i e c1 s1 o1 c2 s2 o2 Hr HFo HInv HP Hi E1 E2 F1 F2 J1 J2 A B).
Qed.

(* ------------------------------------------------------------------ *)
(** Accounting *)
Lemma csteps_pend c s seen o c' s' i : csteps c s seen o c' s' -> (i < n c0)%nat ->
  cut (pend s i) (pend s' i) (column i o) /\ Forall (fun X => length X = n c0) o /\
  (length (pend s' i) <= length (pend s i))%nat.
Proof.
  intros HC Hi. induction HC as [c s seen|c s seen hs ei et si st s1 o1 c1 o2 c2 s2 HFo HW HP Hnum HH HX HK Hsig HF1 HC IH].
  - split; [apply cut_refl|]. split; [constructor|lia].
  - pose proof (fo_n _ _ HFo) as En.
    destruct (step_pend stamp c _ _ _ _ _ _ _ _ i HW HP ltac:(lia) HH HX HK ltac:(lia)) as ((d & Ed) & HL).
    destruct IH as (I1 & I2 & I3). rewrite En in HL. split; [|split].
    + rewrite column_app. eapply cut_trans; [|exact I1].
      exists (d ++ column i o1). split; [now rewrite Ed, app_assoc|]. apply subseq_app_skip, subseq_refl.
    + apply Forall_app; auto.
    + rewrite Ed, !app_length. lia.
Qed.

Lemma run_cb_accounting h : well_indexed (n c0) h ->
  exists c s outs, run_cb stamp cb c0 (init c0) [] h = Ok (c, s, outs) /\
    follows c outs /\ Inv stamp c s /\
    Forall (fun X => length X = n c0) outs /\
    forall i, (i < n c0)%nat ->
      cut (stream i h) (pend s i) (column i outs) /\ (length (pend s i) <= queue_size c0)%nat.
Proof.
  revert h. apply (cb_invariant (fun h c s outs =>
    Forall (fun X => length X = n c0) outs /\
    forall i, (i < n c0)%nat ->
      cut (stream i h) (pend s i) (column i outs) /\ (length (pend s i) <= queue_size c0)%nat)).
  - split; [constructor|]. intros i Hi. unfold pend, pa, dq. cbn. rewrite !nth_repeat_nil.
    split; [apply cut_refl|cbn; lia].
  - intros h c s outs i e c1 s1 o1 c2 s2 o2 Hr HFo HInv (HF & HA) Hi E1 E2 F1 F2 J1 J2 A B.
    pose proof (fo_n _ _ HFo) as En. pose proof (fo_n _ _ F1) as En1. pose proof HInv as [HW HP Hnum].
    assert (forall j, (j < n c0)%nat ->
      cut (pend (push i e s) j) (pend s1 j) (column j o1) /\ Forall (fun X => length X = n c0) o1 /\
      (length (pend s1 j) <= length (pend (push i e s) j))%nat) as HA1.
    { intros j Hj. destruct A as [(w & -> & -> & ->)|A].
      - split; [apply cut_refl|]. split; [constructor|]. cbn. lia.
      - eapply csteps_pend; eauto. }
    assert (forall j, (j < n c0)%nat ->
      cut (pend s1 j) (pend s2 j) (column j o2) /\ Forall (fun X => length X = n c0) o2 /\
      (length (pend s2 j) <= length (pend s1 j))%nat /\
      (i = j -> (length (pend s1 j) <= S (queue_size c0))%nat -> (length (pend s2 j) <= queue_size c0)%nat)) as HA2.
    { intros j Hj. destruct B as [(B1 & -> & -> & ->)|(B1 & B2)].
      - split; [apply cut_refl|]. split; [constructor|]. split; [lia|]. intros -> _. lia.
      - destruct (csteps_pend _ _ _ _ _ _ j B2 Hj) as (C1 & C2 & C3).
        destruct (drop_pend c1 i s1 j (inv_wf _ _ _ J1) ltac:(lia)) as (D1 & D2).
        assert (pend (drop i s1) j = if Nat.eq_dec i j then tl (pend s1 j) else pend s1 j) as D3
          by (unfold pend at 1; rewrite D1, D2; reflexivity).
        rewrite D3 in *.
        split; [|split; [auto|split]].
        + destruct (Nat.eq_dec i j); auto. eapply (cut_trans _ _ _ []); [apply cut_tl|exact C1].
        + destruct (Nat.eq_dec i j); auto. destruct (pend s1 j); cbn in *; lia.
        + intros <- Hlen. destruct (Nat.eq_dec i i); [|congruence].
          destruct (pend s1 i); cbn in *; lia. }
    assert (i < n c0)%nat as Hi0 by lia.
    split.
    + apply Forall_app. split; auto. apply Forall_app.
      split; [apply (HA1 i Hi0)|apply (HA2 i Hi0)].
    + intros j Hj. destruct (HA j Hj) as (S0 & L0).
      destruct (HA1 j Hj) as (S1 & _ & L1). destruct (HA2 j Hj) as (S2 & _ & L2 & L3).
      rewrite (push_pend c) in S1, L1 by auto.
      split.
      * rewrite !column_app, stream_app.
        eapply cut_trans; [|eapply cut_trans; [exact S1|exact S2]].
        assert (stream j [(i, e)] = if Nat.eq_dec i j then [e] else []) as Est.
        { unfold stream. cbn. destruct (Nat.eqb_spec i j), (Nat.eq_dec i j); cbn; congruence. }
        rewrite Est. destruct (Nat.eq_dec i j); [now apply cut_app|]. rewrite !app_nil_r. exact S0.
      * destruct (Nat.eq_dec i j) as [<-|Hne].
        -- apply L3; auto. rewrite app_length in L1. cbn in L1. lia.
        -- lia.
Qed.

(* ------------------------------------------------------------------ *)
(** Every set is the one the parameters in force since the previous set demand. *)
Section Opt.
Variables (tol nm den : list (list E) -> Z).
Hypothesis SC : forall prior, scaling (tol prior) (nm prior) (den prior) (scale_after cb c0 prior).
Variable F : nat -> list E.
Hypothesis HF : forall prior, respects stamp (n c0) (bound_after cb c0 prior) F.
Variable strict : Prop.

Definition QSet (prior : list (list E)) (base x : nat -> nat) (X : list E) : Prop :=
  span stamp X <= interval_after cb c0 prior /\
  optimal_set stamp (n c0) F (nm prior) (den prior) (tol prior) base x X /\
  (strict ->
   next_set stamp (n c0) F (nm prior) (den prior) (interval_after cb c0 prior) (tol prior) base x X /\
   found_set stamp (n c0) F (interval_after cb c0 prior) (scale_after cb c0 prior) base x X).

Definition JInv c seen U base (s : state) : Prop :=
  SInv stamp c (nm seen) (den seen) s /\
  GInv stamp c (tol seen) (nm seen) (den seen) F strict U base s.

Lemma SC_c c seen : follows c seen -> scaling (tol seen) (nm seen) (den seen) (scale c).
Proof. intros H. rewrite (fo_s _ _ H). apply SC. Qed.
Lemma HF_c c seen : follows c seen -> respects stamp (n c) (bound c) F.
Proof.
  intros H i Hi. rewrite (fo_b _ _ H). apply (HF seen). rewrite <- (fo_n _ _ H). exact Hi.
Qed.

(** A state without a pivot whose positions follow the last set: other parameters are as good. *)
Lemma J_cfg c c' seen seen' U base s : n c' = n c -> pivot s = None -> pos c F base U s ->
  JInv c seen U base s -> JInv c' seen' U base s.
Proof.
  intros En Hp Hpos (HS & HD & HG). split.
  - unfold SInv. now rewrite Hp.
  - split; [exact HD|]. rewrite Hp. exists base. split.
    + unfold pos in *. rewrite En. exact Hpos.
    + intros i Hi; auto.
    + intros _ y Y _ Hy _. exact Hy.
Qed.

Lemma csteps_J c s seen o c' s' : csteps c s seen o c' s' -> forall U base, JInv c seen U base s ->
  exists base', sets_after (n c0) QSet seen base o base' /\ JInv c' (seen ++ o) U base' s'.
Proof.
  induction 1 as [c s seen|c s seen hs ei et si st s1 o1 c1 o2 c2 s2 HFo HW HP Hnum HH HX HK Hsig HF1 HC IH];
    intros U base HJ.
  - exists base. rewrite app_nil_r. split; auto. constructor; auto.
  - pose proof (fo_n _ _ HFo) as En. destruct HJ as (HS & HG).
    destruct (step_SInv stamp c _ _ _ (SC_c c seen HFo) _ _ _ _ _ _ _ _ HW HP HS HH HX HK) as (HS1 & Hsp).
    destruct (step_G stamp c _ _ _ (SC_c c seen HFo) F (HF_c c seen HFo) ltac:(lia) strict
                U base s hs ei et si st s1 o1 HW HP HS HG HH HX HK)
      as [(-> & HG1)|(x & X & -> & HPS & HG1 & Hpv & Hpos)].
    + cbn [signal_cb] in Hsig. injection Hsig as <-. rewrite app_nil_r in *. cbn [app].
      apply IH. split; auto.
    + destruct (IH U (fun i => S (x i))) as (base' & Hs & HJ').
      { apply (J_cfg c c1 seen); auto; [|split; auto]. rewrite (fo_n _ _ HF1). auto. }
      exists base'. rewrite app_assoc. split; auto. cbn [app]. econstructor; [|exact Hs].
      destruct HPS as (P1 & P2). rewrite En, (fo_m _ _ HFo), (fo_s _ _ HFo) in *. split; [|split; auto].
      now inversion Hsp.
Qed.

Lemma QSet_ext prior base1 base2 x X :
  (forall i, (i < n c0)%nat -> base1 i = base2 i) -> QSet prior base1 x X -> QSet prior base2 x X.
Proof.
  intros Heq (H1 & H2 & H3). split; auto.
  pose (c := mkCfg (n c0) (queue_size c0) (interval_after cb c0 prior) (scale_after cb c0 prior) (bound c0)).
  destruct (PSet_ext stamp c (tol prior) (nm prior) (den prior) F strict base1 base2 x X Heq) as (A & B).
  - split; auto.
  - split; auto.
Qed.

Lemma sets_after_app prior base o1 b1 o2 b2 :
  sets_after (n c0) QSet prior base o1 b1 -> sets_after (n c0) QSet (prior ++ o1) b1 o2 b2 ->
  sets_after (n c0) QSet prior base (o1 ++ o2) b2.
Proof.
  intros H1; revert o2 b2.
  induction H1 as [prior base base' Heq|prior base x X outs base' HX H1 IH]; intros o2 b2 H2; cbn [app].
  - rewrite app_nil_r in H2. inversion H2 as [? ? ? Heq'|? ? x X outs ? HX H3]; subst.
    + constructor. intros i Hi. rewrite Heq, Heq'; auto.
    + econstructor; [|exact H3]. eapply QSet_ext; [|exact HX]. intros; symmetry; auto.
  - econstructor; [exact HX|]. apply IH. now rewrite <- app_assoc.
Qed.

Lemma run_cb_J h : well_indexed (n c0) h ->
  exists c s outs, run_cb stamp cb c0 (init c0) [] h = Ok (c, s, outs) /\
    follows c outs /\ Inv stamp c s /\
    ((forall i, (i < n c0)%nat -> prefix (stream i h) (F i)) -> (strict -> roomy cb stamp c0 h) ->
     exists base', sets_after (n c0) QSet [] (fun _ => 0%nat) outs base' /\
       JInv c outs (unread F h) base' s).
Proof.
  revert h. apply (cb_invariant (fun h c s outs =>
     (forall i, (i < n c0)%nat -> prefix (stream i h) (F i)) -> (strict -> roomy cb stamp c0 h) ->
     exists base', sets_after (n c0) QSet [] (fun _ => 0%nat) outs base' /\
       JInv c outs (unread F h) base' s)).
  - intros HC _. exists (fun _ => 0%nat). split; [constructor; auto|]. split; [exact I|]. split.
    + intros _ i. cbn. generalize (n c0). intros k; revert i; induction k; destruct i; cbn; auto.
    + cbn. exists (fun _ => 0%nat). split.
      * intros i Hi. unfold pend, pa, dq. cbn. rewrite !nth_repeat_nil. reflexivity.
      * intros i Hi; auto.
      * intros _ y Y _ Hy _. exact Hy.
  - intros h c s outs i e c1 s1 o1 c2 s2 o2 Hr HFo HInv IH Hi E1 E2 F1 F2 J1 J2 A B HC Hno.
    pose proof (fo_n _ _ HFo) as En. pose proof (fo_n _ _ F1) as En1.
    destruct HInv as [HW HP Hnum].
    destruct IH as (base & Hs & HS & HG).
    { intros j Hj. destruct (HC j Hj) as (r & Hrr). rewrite stream_app, <- app_assoc in Hrr. eexists; exact Hrr. }
    { intros Hst h1 j d h2 Eh. apply (Hno Hst h1 j d (h2 ++ [(i, e)])). rewrite Eh, <- app_assoc. reflexivity. }
    assert (covers c F (h ++ [(i, e)])) as HCc by (intros j Hj; apply HC; lia).
    assert (JInv c outs (unread F (h ++ [(i, e)])) base (push i e s)) as HJp.
    { split; [exact HS|]. apply GInv_push; auto. lia. }
    assert (exists b1, sets_after (n c0) QSet outs base o1 b1 /\
              JInv c1 (outs ++ o1) (unread F (h ++ [(i, e)])) b1 s1) as (b1 & Hs1 & HJ1).
    { destruct A as [(w & -> & -> & ->)|A].
      - exists base. rewrite app_nil_r. split; [constructor; auto|]. destruct HJp as (K1 & K2).
        split; [exact K1|]. now apply GInv_warned.
      - eapply csteps_J; eauto. }
    assert (exists b2, sets_after (n c0) QSet (outs ++ o1) b1 o2 b2 /\
              JInv c2 ((outs ++ o1) ++ o2) (unread F (h ++ [(i, e)])) b2 s2) as (b2 & Hs2 & HJ2).
    { destruct B as [(_ & -> & -> & ->)|(Hov & B)].
      - exists b1. rewrite app_nil_r. split; [constructor; auto|]. auto.
      - assert (~ strict) as Hns.
        { intros Hst. specialize (Hno Hst h i e [] eq_refl c s outs c1 s1 o1 Hr E1).
          rewrite (nth_pending c1) in Hno by (destruct J1; auto). unfold pend in Hov. lia. }
        assert (JInv c1 (outs ++ o1) (unread F (h ++ [(i, e)])) b1 (drop i s1)) as HJd.
        { destruct HJ1 as (K1 & K2). split; [exact I|].
          apply GInv_drop; auto; [lia|destruct J1; auto|lia|].
          intros HE. rewrite HE in Hov. cbn in Hov. lia. }
        eapply csteps_J; eauto. }
    rewrite <- app_assoc in HJ2. exists b2. split; auto.
    apply (sets_after_app [] _ outs base); auto.
    apply (sets_after_app outs _ o1 b1); auto.
Qed.
End Opt.

(* ------------------------------------------------------------------ *)
(** Spans, for arbitrary stamps *)
Definition spans_ok (seen o : list (list E)) : Prop :=
  forall k X, nth_error o k = Some X -> span stamp X <= interval_after cb c0 (seen ++ firstn k o).

Lemma spans_ok_nil seen : spans_ok seen [].
Proof. intros [|k] X H; discriminate H. Qed.

Lemma spans_ok_app seen o1 o2 : spans_ok seen o1 -> spans_ok (seen ++ o1) o2 -> spans_ok seen (o1 ++ o2).
Proof.
  intros H1 H2 k X HX. destruct (Nat.lt_ge_cases k (length o1)) as [Hk|Hk].
  - rewrite nth_error_app1 in HX by auto. rewrite firstn_app.
    replace (k - length o1)%nat with 0%nat by lia. rewrite app_nil_r. auto.
  - rewrite nth_error_app2 in HX by auto. rewrite firstn_app, (firstn_all2 o1) by auto.
    rewrite app_assoc. auto.
Qed.

Lemma run_cb_span h c s outs : well_indexed (n c0) h ->
  (forall prior, lengthens (scale_after cb c0 prior)) ->
  run_cb stamp cb c0 (init c0) [] h = Ok (c, s, outs) -> spans_ok [] outs.
Proof.
  intros HI HL Hr.
  assert (forall c s seen o c' s', csteps c s seen o c' s' -> TInv stamp (interval_after cb c0 seen) (n c0) s ->
            TInv stamp (interval_after cb c0 (seen ++ o)) (n c0) s' /\ spans_ok seen o) as Hsteps.
  { induction 1 as [c' s' seen|c' s' seen hs ei et si st s1 o1 c1 o2 c2 s2 HFo HW HP Hnum HH HX HK Hsig HF1 HC IH];
      intros HT; [rewrite app_nil_r; split; [auto|apply spans_ok_nil]|].
    pose proof (fo_n _ _ HFo) as En.
    destruct (step_TInv stamp (interval_after cb c0 seen) c' ltac:(lia) ltac:(rewrite (fo_m _ _ HFo); lia)
                ltac:(rewrite (fo_s _ _ HFo); auto) s' hs ei et si st s1 o1 HW HP ltac:(now rewrite En) HH HX HK)
      as (T1 & G1).
    rewrite En in T1.
    assert (TInv stamp (interval_after cb c0 (seen ++ o1)) (n c0) s1 /\ spans_ok seen o1) as (T1' & G1').
    { destruct (step_kind_out _ _ _ _ _ _ _ _ _ HK) as [->|((X & ->) & Hp)].
      - rewrite app_nil_r. split; [exact T1|apply spans_ok_nil].
      - split; [unfold TInv; now rewrite Hp|]. intros [|[|k]] Y HY; cbn in HY; try discriminate.
        injection HY as <-. rewrite app_nil_r. now inversion G1. }
    destruct (IH T1') as (T2 & G2). rewrite app_assoc. split; auto. now apply spans_ok_app. }
  destruct (cb_invariant (fun h c s outs => TInv stamp (interval_after cb c0 outs) (n c0) s /\ spans_ok [] outs))
    with (h := h) as (c' & s' & outs' & Hr' & _ & _ & HP); auto.
  - split; [exact I|apply spans_ok_nil].
  - clear h c s outs HI Hr.
    intros h c s outs i e c1 s1 o1 c2 s2 o2 Hr HFo HInv (HT & HF) Hi E1 E2 F1 F2 J1 J2 A B.
    pose proof (fo_n _ _ HFo) as En.
    assert (TInv stamp (interval_after cb c0 outs) (n c0) (push i e s)) as Tp.
    { rewrite <- En in HT |- *. apply push_TInv; auto. destruct HInv; auto. }
    assert (TInv stamp (interval_after cb c0 (outs ++ o1)) (n c0) s1 /\ spans_ok outs o1) as (T1 & G1).
    { destruct A as [(w & -> & -> & ->)|A]; [rewrite app_nil_r; split; [exact Tp|apply spans_ok_nil]|].
      eapply Hsteps; eauto. }
    assert (TInv stamp (interval_after cb c0 ((outs ++ o1) ++ o2)) (n c0) s2 /\ spans_ok (outs ++ o1) o2) as (T2 & G2).
    { destruct B as [(_ & -> & -> & ->)|(_ & B)]; [rewrite app_nil_r; split; [exact T1|apply spans_ok_nil]|].
      eapply Hsteps; eauto. exact I. }
    rewrite app_assoc. split; auto.
    apply spans_ok_app; auto. apply spans_ok_app; auto.
  - rewrite Hr' in Hr. injection Hr as <- <- <-. apply HP.
Qed.
End P.

(* ------------------------------------------------------------------ *)
(** A callback that calls nothing, and one that adds a message *)
Section Plain.
Context {E : Type} (stamp : E -> Z).
Variable cb : list (list E) -> list (op E).

Section Like.
Variable stop : bool.
Hypothesis Hcb : if stop then adds_first cb else forall outs, cb outs = [].

Definition like (c : cfg) (r : res (state E * list (list E)))
  (rc : res (cfg * state E * list (list E))) : Prop :=
  match r with
  | Ok (s, o) => rc = if stop && negb (is_nil o) then Err Deadlock else Ok (c, s, o)
  | Err _ => True
  end.

Lemma signal_like c seen o : o <> [] ->
  signal_cb cb c seen o = if stop then Err Deadlock else Ok c.
Proof.
  intros Ho. destruct o as [|X o]; [congruence|]. unfold signal_cb.
  destruct stop.
  - destruct (Hcb (seen ++ X :: o)) as (i & e & r & ->). reflexivity.
  - now rewrite Hcb.
Qed.

Lemma process_like c fuel : forall s seen,
  like c (process stamp c fuel s) (process_cb stamp cb fuel c s seen).
Proof.
  induction fuel as [|fuel IH]; intros s seen; cbn [process process_cb].
  - destruct (Nat.eqb (num s) (n c)); cbn; auto. now rewrite andb_false_r.
  - destruct (Nat.eqb (num s) (n c)); [|cbn; now rewrite andb_false_r].
    destruct (iteration stamp c s) as [(s1 & o1)|]; cbn [bind]; [|exact I].
    specialize (IH s1 (seen ++ o1)).
    destruct (process stamp c fuel s1) as [(s2 & o2)|]; cbn [bind]; [|exact I]. cbn in IH |- *.
    destruct o1 as [|X o1].
    + cbn [signal_cb bind app]. rewrite IH. destruct (stop && negb (is_nil o2)); reflexivity.
    + rewrite signal_like by discriminate. destruct stop; cbn [andb is_nil negb bind app]; [reflexivity|].
      rewrite IH. reflexivity.
Qed.

Lemma add_like c s seen x : like c (add stamp c s x) (add_cb stamp cb c s seen x).
Proof.
  destruct x as [i e]. unfold add, add_cb. cbn [fst snd].
  assert (like c (add_process stamp c s i e) (add_process_cb stamp cb c s seen i e)) as H1.
  { unfold add_process, add_process_cb. destruct (nth_error (deques s) i) as [q|]; [|exact I].
    destruct (is_nil q); [destruct (Nat.eqb _ _); [apply process_like|]|]; cbn; now rewrite andb_false_r. }
  destruct (add_process stamp c s i e) as [(s1 & o1)|]; cbn [bind]; [|exact I]. cbn in H1. rewrite H1.
  assert (like c (add_overflow stamp c s1 i) (add_overflow_cb stamp cb c s1 (seen ++ o1) i)) as H2.
  { unfold add_overflow, add_overflow_cb. destruct (Nat.ltb _ _); [|cbn; now rewrite andb_false_r].
    cbv zeta. destruct (nth i (deques (recover_all s1)) []) as [|y q]; [exact I|].
    cbn [pivot]. destruct (pivot (recover_all s1)); [apply process_like|cbn; now rewrite andb_false_r]. }
  destruct (add_overflow stamp c s1 i) as [(s2 & o2)|]; cbn [bind]; [|exact I]. cbn in H2 |- *.
  destruct stop; cbn [andb] in *.
  - destruct o1 as [|X o1]; cbn [is_nil negb bind app]; [|reflexivity].
    cbn [is_nil negb bind app] in *. rewrite H2. destruct o2; reflexivity.
  - cbn [bind]. rewrite H2. reflexivity.
Qed.

Lemma run_like c h : forall s seen, like c (run stamp c s h) (run_cb stamp cb c s seen h).
Proof.
  induction h as [|x h IH]; intros s seen; cbn [run run_cb].
  - cbn. now rewrite andb_false_r.
  - pose proof (add_like c s seen x) as H1.
    destruct (add stamp c s x) as [(s1 & o1)|]; cbn [bind]; [|exact I]. cbn in H1. rewrite H1.
    specialize (IH s1 (seen ++ o1)).
    destruct (run stamp c s1 h) as [(s2 & o2)|]; cbn [bind]; [|exact I]. cbn in IH |- *.
    destruct stop; cbn [andb] in *.
    + destruct o1 as [|X o1]; cbn [is_nil negb bind app]; [|reflexivity].
      cbn [is_nil negb bind app] in *. rewrite IH. destruct o2; reflexivity.
    + cbn [bind]. rewrite IH. reflexivity.
Qed.
End Like.
End Plain.
