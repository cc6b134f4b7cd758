(** Proofs about ApproximateTime with setters called between messages. *)
From Coq Require Import List Arith ZArith Lia Bool Sorted.
From Verif Require Import Base Trace Approx_Model Approx_Spec Approx_Proofs Approx_Opt.
From Verif Require ApproxSet_Model.
From Verif Require Import ApproxSet_Spec.
Import ListNotations.
Import ApproxSet_Model (op, Add, SetAgePenalty, SetLowerBound, SetMaxInterval, penalty, nonneg, factor).
Local Open Scope Z_scope.

Section P.
Context {E : Type} (stamp : E -> Z).
Notation state := (state E).
Notation step := (ApproxSet_Model.step stamp).
Notation runs := (ApproxSet_Model.run stamp).

(* ------------------------------------------------------------------ *)
(** The invariants of the policy do not depend on the parameters that can be set. *)
Lemma Inv_cfg c c' (s : state) : n c' = n c -> Inv stamp c s -> Inv stamp c' s.
Proof.
  intros Hn [[W1 W2 W3 W4] HP HN]. split.
  - split; rewrite ?Hn; auto.
  - unfold PInv, has_candidate in *. rewrite Hn. exact HP.
  - now rewrite Hn.
Qed.

Definition is_add (o : op E) : bool := match o with Add _ _ => true | _ => false end.

(** A setter changes only its parameter. *)
Lemma setter_ok N c s o : is_add o = false -> allowed N o -> n c = N ->
  exists c', step c s o = Ok (c', s, []) /\ n c' = n c /\ queue_size c' = queue_size c /\
    (max_interval c' = max_interval c \/ In (max_interval c') (intervals_set [o])) /\
    (scale c' = scale c \/ exists p, In p (penalties_set [o]) /\ scale c' = factor p).
Proof.
  intros Ha Ho HN. destruct o as [i e|p|i b|d]; cbn in *; [discriminate| | |].
  - unfold ApproxSet_Model.set_age_penalty. rewrite Ho. eexists. split; [reflexivity|]. cbn.
    repeat (split; auto). right. exists p. auto.
  - unfold ApproxSet_Model.set_lower_bound. destruct Ho as (Hi & Hb).
    destruct (Z.ltb_spec b 0); [lia|]. destruct (Nat.ltb_spec i (n c)); [|lia].
    eexists. split; [reflexivity|]. cbn. auto.
  - unfold ApproxSet_Model.set_max_interval. destruct (Z.ltb_spec d 0); [lia|].
    eexists. split; [reflexivity|]. cbn. repeat (split; auto).
Qed.

Lemma runs_app c s h1 h2 : runs c s (h1 ++ h2) =
  do '(c1, s1, o1) <- runs c s h1; do '(c2, s2, o2) <- runs c1 s1 h2; Ok (c2, s2, o1 ++ o2).
Proof.
  revert c s; induction h1 as [|x h1 IH]; intros c s; cbn [app ApproxSet_Model.run].
  - cbn [bind]. now destruct (runs c s h2) as [((c2 & s2) & o2)|].
  - destruct (step c s x) as [((c1 & s1) & o1)|]; cbn [bind]; auto. rewrite IH.
    destruct (runs c1 s1 h1) as [((c2 & s2) & o2)|]; cbn [bind]; auto.
    destruct (runs c2 s2 h2) as [((c3 & s3) & o3)|]; cbn [bind]; auto. now rewrite app_assoc.
Qed.

Lemma runs_snoc c s h x c1 s1 o1 :
  runs c s h = Ok (c1, s1, o1) ->
  runs c s (h ++ [x]) = do '(c2, s2, o2) <- step c1 s1 x; Ok (c2, s2, o1 ++ o2).
Proof.
  intros H. rewrite runs_app, H. cbn [bind ApproxSet_Model.run].
  destruct (step c1 s1 x) as [((c2 & s2) & o2)|]; cbn [bind]; auto. now rewrite app_nil_r.
Qed.

Lemma adds_app (h1 h2 : list (op E)) : adds (h1 ++ h2) = adds h1 ++ adds h2.
Proof. apply flat_map_app. Qed.

(** Additions only: the policy without setters. *)
Lemma runs_adds c s h :
  runs c s (map (fun ie => Add (fst ie) (snd ie)) h) =
  do '(s', o) <- run stamp c s h; Ok (c, s', o).
Proof.
  revert s; induction h as [|[i e] h IH]; intros s; cbn [map ApproxSet_Model.run run fst snd]; auto.
  cbn [ApproxSet_Model.step]. destruct (add stamp c s (i, e)) as [(s1 & o1)|]; cbn [bind]; auto.
  rewrite IH. destruct (run stamp c s1 h) as [(s2 & o2)|]; cbn [bind]; auto.
Qed.

Section Run.
Variable c0 : cfg.
Hypothesis Hn : (0 < n c0)%nat.
Hypothesis Hq : (0 < queue_size c0)%nat.

(** Induction principle for runs with setters *)
Lemma ops_invariant (P : list (op E) -> cfg -> state -> list (list E) -> Prop) :
  P [] c0 (init c0) [] ->
  (forall h c s outs o c', P h c s outs -> is_add o = false -> allowed (n c0) o ->
     n c = n c0 -> queue_size c = queue_size c0 ->
     step c s o = Ok (c', s, []) -> n c' = n c -> queue_size c' = queue_size c ->
     (max_interval c' = max_interval c \/ In (max_interval c') (intervals_set [o])) ->
     (scale c' = scale c \/ exists p, In p (penalties_set [o]) /\ scale c' = factor p) ->
     P (h ++ [o]) c' s outs) ->
  (forall h c s outs i e s1 o1 s2 o2,
     n c = n c0 -> queue_size c = queue_size c0 ->
     Inv stamp c s -> P h c s outs -> (i < n c)%nat ->
     add_process stamp c s i e = Ok (s1, o1) -> add_overflow stamp c s1 i = Ok (s2, o2) ->
     Inv stamp c s1 -> Inv stamp c s2 ->
     ((exists w, s1 = set_warned w (push i e s) /\ o1 = []) \/ steps stamp c (push i e s) o1 s1) ->
     (((length (pend s1 i) <= queue_size c)%nat /\ s2 = s1 /\ o2 = []) \/
      ((queue_size c < length (pend s1 i))%nat /\ steps stamp c (drop i s1) o2 s2)) ->
     P (h ++ [Add i e]) c s2 (outs ++ o1 ++ o2)) ->
  forall h, Forall (allowed (n c0)) h ->
  exists c s outs, runs c0 (init c0) h = Ok (c, s, outs) /\
    n c = n c0 /\ queue_size c = queue_size c0 /\ Inv stamp c s /\ P h c s outs.
Proof.
  intros H0 HS HA. induction h as [|o h IH] using rev_ind; intros HF.
  - exists c0, (init c0), []. split; auto. split; auto. split; auto. split; auto. now apply init_Inv.
  - apply Forall_app in HF as (HF & Ho). inversion Ho as [|? ? Ho1 _]; subst.
    destruct (IH HF) as (c & s & outs & Hr & En & Eq & HI & HP).
    destruct (is_add o) eqn:Ea.
    + destruct o as [i e| | |]; try discriminate Ea. cbn in Ho1.
      destruct (add_cases stamp c s i e ltac:(lia) ltac:(lia) HI ltac:(lia))
        as (s1 & o1 & s2 & o2 & E1 & E2 & E3 & J1 & J2 & A & B).
      exists c, s2, (outs ++ o1 ++ o2). split.
      { rewrite (runs_snoc _ _ _ _ _ _ _ Hr). cbn [ApproxSet_Model.step]. rewrite E3. reflexivity. }
      split; auto. split; auto. split; auto.
      assert (i < n c)%nat as Hi by lia.
      exact (HA h c s outs i e s1 o1 s2 o2 En Eq HI HP Hi E1 E2 J1 J2 A B).
    + destruct (setter_ok (n c0) c s o Ea Ho1 En) as (c' & E1 & E2 & E3 & E4 & E5).
      exists c', s, outs. split.
      { rewrite (runs_snoc _ _ _ _ _ _ _ Hr), E1. cbn [bind]. now rewrite app_nil_r. }
      split; [congruence|]. split; [congruence|]. split; [now apply (Inv_cfg c)|].
      exact (HS h c s outs o c' HP Ea Ho1 En Eq E1 E2 E3 E4 E5).
Qed.

Lemma setter_adds (o : op E) : is_add o = false -> adds [o] = [].
Proof. now destruct o. Qed.

(** Never a failure; accounting *)
Lemma runs_accounting h : Forall (allowed (n c0)) h ->
  exists c s outs, runs c0 (init c0) h = Ok (c, s, outs) /\
    n c = n c0 /\ queue_size c = queue_size c0 /\ Inv stamp c s /\
    Forall (fun X => length X = n c0) outs /\
    forall i, (i < n c0)%nat ->
      cut (stream i (adds h)) (pend s i) (column i outs) /\ (length (pend s i) <= queue_size c0)%nat.
Proof.
  revert h. apply (ops_invariant (fun h c s outs =>
    Forall (fun X => length X = n c0) outs /\
    forall i, (i < n c0)%nat ->
      cut (stream i (adds h)) (pend s i) (column i outs) /\ (length (pend s i) <= queue_size c0)%nat)).
  - split; [constructor|]. intros i Hi. unfold pend, pa, dq. cbn. rewrite !nth_repeat_nil.
    split; [apply cut_refl|cbn; lia].
  - intros h c s outs o c' HP Ha Ho En Eq _ _ _ _ _.
    rewrite adds_app, (setter_adds o Ha), app_nil_r. exact HP.
  - intros h c s outs i e s1 o1 s2 o2 En Eq HInv (HF & HA) Hi E1 E2 J1 J2 A B.
    rewrite <- En in *. rewrite <- Eq in *. destruct HInv as [HW HP Hnum].
    rewrite adds_app. cbn [adds flat_map app].
    assert (forall j, (j < n c)%nat ->
      cut (pend (push i e s) j) (pend s1 j) (column j o1) /\ Forall (fun X => length X = n c) o1 /\
      (length (pend s1 j) <= length (pend (push i e s) j))%nat) as HA1.
    { intros j Hj. destruct A as [(w & -> & ->)|A].
      - split; [apply cut_refl|]. split; [constructor|]. cbn. lia.
      - split; [eapply steps_cut; eauto|]. now apply (steps_pend stamp c) with (i := j) in A. }
    assert (forall j, (j < n c)%nat ->
      cut (pend s1 j) (pend s2 j) (column j o2) /\ Forall (fun X => length X = n c) o2 /\
      (length (pend s2 j) <= length (pend s1 j))%nat /\
      (i = j -> (length (pend s1 j) <= S (queue_size c))%nat -> (length (pend s2 j) <= queue_size c)%nat)) as HA2.
    { intros j Hj. destruct B as [(B1 & -> & ->)|(B1 & B2)].
      - split; [apply cut_refl|]. split; [constructor|]. split; [lia|]. intros -> _. lia.
      - destruct (steps_pend stamp c _ _ _ j Hn B2 Hj) as (_ & C2 & C3).
        pose proof (steps_cut stamp c _ _ _ j Hn B2 Hj) as C1.
        destruct (drop_pend c i s1 j (inv_wf _ _ _ J1) Hi) as (D1 & D2).
        assert (pend (drop i s1) j = if Nat.eq_dec i j then tl (pend s1 j) else pend s1 j) as D3
          by (unfold pend at 1; rewrite D1, D2; reflexivity).
        rewrite D3 in *.
        split; [|split; [auto|split]].
        + destruct (Nat.eq_dec i j); auto. eapply (cut_trans _ _ _ []); [apply cut_tl|exact C1].
        + destruct (Nat.eq_dec i j); auto. destruct (pend s1 j); cbn in *; lia.
        + intros <- Hlen. destruct (Nat.eq_dec i i); [|congruence].
          destruct (pend s1 i); cbn in *; lia. }
    split.
    + apply Forall_app. split; auto. apply Forall_app.
      split; [apply (HA1 i Hi)|apply (HA2 i Hi)].
    + intros j Hj. destruct (HA j Hj) as (S0 & L0).
      destruct (HA1 j Hj) as (S1 & _ & L1). destruct (HA2 j Hj) as (S2 & _ & L2 & L3).
      rewrite (push_pend c) in S1, L1 by auto.
      split.
      * rewrite !column_app, stream_app.
        eapply cut_trans; [|eapply cut_trans; [exact S1|exact S2]].
        assert (stream j [(i, e)] = if Nat.eq_dec i j then [e] else []) as Est.
        { unfold stream. cbn. destruct (Nat.eqb_spec i j), (Nat.eq_dec i j); cbn; congruence. }
        rewrite Est. destruct (Nat.eq_dec i j); [now apply cut_app|]. rewrite !app_nil_r. exact S0.
      * destruct (Nat.eq_dec i j) as [<-|Hne].
        -- apply L3; auto. rewrite app_length in L1. cbn in L1. lia.
        -- lia.
Qed.
End Run.

(* ------------------------------------------------------------------ *)
(** Spans: the latest message of the queues' fronts never gets earlier during a search, and
    no later candidate is longer. *)
Section Span.
Variable M : Z.

Definition reached (N : nat) (s : state) : Prop :=
  cend s <= ptime s \/
  exists i e, (i < N)%nat /\ hd_error (dq s i) = Some e /\ cend s <= stamp e /\ ptime s < stamp e.

Definition TInv (N : nat) (s : state) : Prop :=
  match pivot s with
  | None => True
  | Some _ =>
      (exists cand, candidate s = Some cand /\ start stamp cand = cstart s /\ finish stamp cand = cend s) /\
      cend s - cstart s <= M /\ reached N s
  end.

Variable c : cfg.
Hypothesis Hn : (0 < n c)%nat.
Hypothesis HM : max_interval c <= M.
Hypothesis HL : lengthens (scale c).

Lemma choose_TInv hs ei et si st s :
  WF c s -> PInv stamp c s -> TInv (n c) s -> heads c s hs -> extremes stamp hs ei et si st ->
  (pivot s = None -> et - st <= max_interval c) ->
  TInv (n c) (choose c hs st et ei s) /\ st <= ptime (choose c hs st et ei s).
Proof.
  intros HW HP HT HH HX HB.
  destruct (extremes_start_finish stamp hs ei et si st HX) as (Est & Eet & Hle).
  pose proof HH as (HH1 & HH2).
  unfold choose. destruct (pivot s) as [p|] eqn:Ep.
  - unfold TInv in HT. rewrite Ep in HT. destruct HT as (C1 & C4 & C5).
    unfold PInv in HP. rewrite Ep in HP. destruct HP as (Hp & _ & _ & x & Hx & Hpt).
    assert (st <= ptime s <= et) as Hpe.
    { rewrite <- HH2 in Hx by auto. pose proof (ex_all _ _ _ _ _ _ HX p x Hx). lia. }
    assert (cend s <= et) as Hce.
    { destruct C5 as [C5|(i & e & C5 & C6 & C7 & C8)]; [lia|].
      rewrite <- HH2 in C6 by auto. pose proof (ex_all _ _ _ _ _ _ HX i e C6). lia. }
    destruct (better_heads c s st et) eqn:Eb; [|split; [|lia]].
    + split; [|cbn; lia]. unfold TInv. cbn. split; [exists hs; auto|].
      unfold better_heads in Eb. rewrite negb_true_iff, Z.leb_gt in Eb.
      specialize (HL (et - cend s) ltac:(lia)). split; [lia|].
      unfold reached. cbn. destruct (Z.le_gt_cases et (ptime s)); [now left|right].
      destruct (ex_et _ _ _ _ _ _ HX) as (e & E1 & E2). pose proof (ex_ei _ _ _ _ _ _ HX).
      exists ei, e. rewrite HH2 in E1 by lia. split; [lia|]. split; [exact E1|]. lia.
    + unfold TInv. rewrite Ep. split; auto.
  - unfold TInv. cbn. split; [|lia]. split; [exists hs; auto|]. specialize (HB eq_refl).
    split; [lia|]. unfold reached. cbn. left. lia.
Qed.

Lemma mv_TInv si st s e : WF c s -> (si < n c)%nat -> hd_error (dq s si) = Some e -> stamp e = st ->
  st <= ptime s -> TInv (n c) s -> TInv (n c) (mv si s).
Proof.
  intros HW Hsi He Est Hst HT. unfold TInv in *. cbn [mv set_queues pivot candidate cstart cend] in *.
  destruct (pivot s); auto. destruct HT as (A & B & C). split; auto. split; auto.
  destruct C as [C|(i & x & C1 & C2 & C3 & C4)]; [now left|right].
  exists i, x. split; auto. fold (mv si s). rewrite (mv_dq c) by (destruct HW; auto).
  destruct (Nat.eq_dec si i) as [->|]; [|cbn; auto].
  exfalso. assert (e = x) by congruence. subst. lia.
Qed.

Lemma step_TInv s hs ei et si st s' o :
  WF c s -> PInv stamp c s -> TInv (n c) s -> heads c s hs -> extremes stamp hs ei et si st ->
  step_kind stamp c s hs ei et si st s' o ->
  TInv (n c) s' /\ Forall (fun X => span stamp X <= M) o.
Proof.
  intros HW HP HT HH HX HK.
  set (s0 := clear_dropped ei s) in *.
  assert (forall s2, s2 = mv si (choose c hs st et ei s0) -> (pivot s = None -> et - st <= max_interval c) -> TInv (n c) s2) as Hmv.
  { intros s2 -> HB.
    destruct (choose_TInv hs ei et si st s0) as (HT1 & Hst); auto.
    { now apply clear_WF. }
    destruct (ex_st _ _ _ _ _ _ HX) as (e & E1 & E2). pose proof (ex_si _ _ _ _ _ _ HX).
    destruct HH as (HH1 & HH2). rewrite HH2 in E1 by lia.
    apply (mv_TInv si st _ e); auto.
    - apply choose_WF. now apply clear_WF.
    - lia.
    - unfold dq. rewrite choose_dq. exact E1. }
  destruct HK as [Hpv Hc | p cand Hc s2 Hp2 Hc2 HJ | p Hc s2 Hp2 Hne Hag].
  - split; [|constructor]. unfold TInv. cbn. rewrite Hpv. auto.
  - specialize (Hmv s2 eq_refl ltac:(intros; now apply Hc)).
    split; [exact I|]. constructor; [|constructor]. unfold TInv in Hmv. rewrite Hp2 in Hmv.
    destruct Hmv as ((cand' & C1 & C2 & C3) & C4 & _).
    assert (cand' = cand) as -> by congruence. unfold span. lia.
  - split; [|constructor]. apply Hmv; auto. intros; now apply Hc.
Qed.

Lemma steps_TInv s o s' : steps stamp c s o s' -> TInv (n c) s ->
  TInv (n c) s' /\ Forall (fun X => span stamp X <= M) o.
Proof.
  induction 1 as [s|s hs ei et si st s1 o1 s2 o2 HW HP Hnum HH HX HK HSt IH]; intros HT.
  - split; auto.
  - destruct (step_TInv _ _ _ _ _ _ _ _ HW HP HT HH HX HK) as (HT1 & HF1).
    destruct (IH HT1) as (HT2 & HF2). split; auto. apply Forall_app; auto.
Qed.

Lemma push_TInv i e s : WF c s -> (i < n c)%nat -> TInv (n c) s -> TInv (n c) (push i e s).
Proof.
  intros HW Hi HT. unfold TInv in *. cbn [push set_queues pivot candidate cstart cend] in *.
  destruct (pivot s); auto. destruct HT as (A & B & C). split; auto. split; auto.
  destruct C as [C|(j & x & C1 & C2 & C3 & C4)]; [now left|right].
  exists j, x. split; auto. fold (push i e s). rewrite (push_dq c) by auto.
  destruct (Nat.eq_dec i j); [|cbn; auto]. split; [|cbn; auto]. now apply hd_error_app.
Qed.
End Span.

Lemma runs_span c0 M h c s outs :
  (0 < n c0)%nat -> (0 < queue_size c0)%nat -> Forall (allowed (n c0)) h ->
  max_interval c0 <= M -> Forall (fun d => d <= M) (intervals_set h) ->
  lengthens (scale c0) -> Forall (fun p => lengthens (factor p)) (penalties_set h) ->
  runs c0 (init c0) h = Ok (c, s, outs) ->
  Forall (fun X => span stamp X <= M) outs.
Proof.
  intros Hn Hq HA HM HMs HL HLs Hr.
  destruct (ops_invariant c0 Hn Hq (fun h c s outs =>
     Forall (fun d => d <= M) (intervals_set h) ->
     Forall (fun p => lengthens (factor p)) (penalties_set h) ->
     max_interval c <= M /\ lengthens (scale c) /\ TInv M (n c0) s /\
     Forall (fun X => span stamp X <= M) outs)) with (h := h)
    as (c' & s' & outs' & Hr' & _ & _ & _ & HP); auto.
  - intros _ _. split; auto. split; auto. split; [exact I|constructor].
  - clear h HA HMs HLs Hr c s outs.
    intros h c s outs o c' HP Ha Ho En Eq _ En' Eq' Hm Hs HMs HLs.
    unfold intervals_set, penalties_set in HMs, HLs.
    rewrite flat_map_app in HMs, HLs. apply Forall_app in HMs as (HMs & HMo), HLs as (HLs & HLo).
    destruct (HP HMs HLs) as (P1 & P2 & P3 & P4).
    split; [|split; [|split; auto]].
    + destruct Hm as [->|Hm]; auto. rewrite Forall_forall in HMo. auto.
    + destruct Hs as [->|(p & Hp & ->)]; auto. rewrite Forall_forall in HLo. auto.
  - clear h HA HMs HLs Hr c s outs.
    intros h c s outs i e s1 o1 s2 o2 En Eq HInv HP Hi E1 E2 J1 J2 A B HMs HLs.
    rewrite <- En in *. destruct HInv as [HW HPI Hnum].
    unfold intervals_set, penalties_set in HMs, HLs.
    rewrite flat_map_app in HMs, HLs. apply Forall_app in HMs as (HMs & HMo), HLs as (HLs & HLo).
    destruct (HP HMs HLs) as (P1 & P2 & P3 & P4).
    split; auto. split; auto.
    assert (TInv M (n c) (push i e s)) as Tp by now apply push_TInv.
    assert (TInv M (n c) s1 /\ Forall (fun X => span stamp X <= M) o1) as (T1 & F1).
    { destruct A as [(w & -> & ->)|A]; [split; [exact Tp|constructor]|].
      eapply steps_TInv; eauto. }
    assert (TInv M (n c) s2 /\ Forall (fun X => span stamp X <= M) o2) as (T2 & F2).
    { destruct B as [(_ & -> & ->)|(_ & B)]; [split; [exact T1|constructor]|].
      eapply steps_TInv; eauto. exact I. }
    split; auto. apply Forall_app. split; auto. apply Forall_app; auto.
  - rewrite Hr' in Hr. injection Hr as <- <- <-. now apply HP.
Qed.

(* ------------------------------------------------------------------ *)
(** After the setters were called while no search is in progress *)
Section Idle.
Variable c : cfg.
Variables (tol num den : Z).
Hypothesis SC : scaling tol num den (scale c).
Variable F : nat -> list E.
Hypothesis HF : respects stamp (n c) (bound c) F.
Hypothesis Hn : (0 < n c)%nat.
Hypothesis Hq : (0 < queue_size c)%nat.
Variable strict : Prop.
Notation PSet := (PSet stamp c tol num den F strict).
Notation GInv := (GInv stamp c tol num den F strict).
Notation SInv := (SInv stamp c num den).
Notation covers := (covers c F).
Notation unread := (unread F).

Lemma run_G_from h : forall s h1 base s' outs,
  well_indexed (n c) h -> Inv stamp c s -> SInv s -> covers (h1 ++ h) -> GInv (unread h1) base s ->
  (strict -> no_overflow_from stamp c s h) ->
  run stamp c s h = Ok (s', outs) ->
  exists base', sets_from (n c) PSet base outs base' /\ GInv (unread (h1 ++ h)) base' s'.
Proof.
  induction h as [|[i e] h IH]; intros s h1 base s' outs HI HInv HS HC HG Hno Hr.
  - injection Hr as <- <-. exists base. rewrite app_nil_r. split; auto. constructor; auto.
  - assert (i < n c)%nat as Hi by (apply (HI i e); now left).
    destruct (add_cases stamp c s i e Hn Hq HInv Hi)
      as (s1 & o1 & s2 & o2 & E1 & E2 & E3 & J1 & J2 & A & B).
    cbn [run] in Hr. rewrite E3 in Hr. cbn [bind] in Hr.
    destruct (run stamp c s2 h) as [(s3 & o3)|] eqn:Er; [|discriminate]. cbn [bind] in Hr.
    injection Hr as <- <-.
    assert (h1 ++ (i, e) :: h = (h1 ++ [(i, e)]) ++ h) as Eh by now rewrite <- app_assoc.
    assert (covers (h1 ++ [(i, e)])) as HC1.
    { intros j Hj. destruct (HC j Hj) as (r & Hrr). rewrite Eh, stream_app, <- app_assoc in Hrr. eexists; exact Hrr. }
    destruct HInv as [HW HP Hnm].
    assert (GInv (unread (h1 ++ [(i, e)])) base (push i e s)) as HGp by (now apply GInv_push).
    assert (SInv (push i e s)) as HSp by exact HS.
    assert (SInv s1) as HS1.
    { destruct A as [(w & -> & ->)|A]; [exact HSp|]. eapply steps_SInv; eauto. }
    assert (SInv s2) as HS2.
    { destruct B as [(_ & -> & ->)|(_ & B)]; [exact HS1|]. eapply steps_SInv; eauto. exact I. }
    assert (exists b1, sets_from (n c) PSet base o1 b1 /\ GInv (unread (h1 ++ [(i, e)])) b1 s1) as (b1 & Hc1 & HG1).
    { destruct A as [(w & -> & ->)|A].
      - exists base. split; [constructor; auto|]. now apply GInv_warned.
      - eapply steps_G; eauto. }
    assert (exists b2, sets_from (n c) PSet b1 o2 b2 /\ GInv (unread (h1 ++ [(i, e)])) b2 s2) as (b2 & Hc2 & HG2).
    { destruct B as [(_ & -> & ->)|(Hov & B)].
      - exists b1. split; [constructor; auto|]. auto.
      - assert (~ strict) as Hns.
        { intros Hst. specialize (Hno Hst [] i e h eq_refl s [] s1 o1 eq_refl E1).
          rewrite (nth_pending c) in Hno by (destruct J1; auto). unfold pend in Hov. lia. }
        assert (GInv (unread (h1 ++ [(i, e)])) b1 (drop i s1)) as HGd.
        { apply GInv_drop; auto; [destruct J1; auto|]. intros HE. rewrite HE in Hov. cbn in Hov. lia. }
        eapply steps_G; eauto. exact I. }
    destruct (IH s2 (h1 ++ [(i, e)]) b2 s3 o3) as (b3 & Hc3 & HG3); auto.
    { intros j x Hj. apply (HI j x). now right. }
    { now rewrite <- Eh. }
    { intros Hst k1 j x k2 Ek sa oa sb ob Ra Rb.
      apply (Hno Hst ((i, e) :: k1) j x k2 ltac:(now rewrite Ek) sa ((o1 ++ o2) ++ oa) sb ob); auto.
      cbn [run]. rewrite E3. cbn [bind]. rewrite Ra. reflexivity. }
    exists b3. rewrite Eh. split; auto.
    eapply chain_app; [apply PSet_ext| |exact Hc3].
    eapply chain_app; [apply PSet_ext|exact Hc1|exact Hc2].
Qed.

(** A history of what is held *)
Definition held (s : state) : list (nat * E) :=
  flat_map (fun i => map (pair i) (pend s i)) (seq 0 (n c)).

Lemma stream_held s i : (i < n c)%nat -> stream i (held s) = pend s i.
Proof.
  intros Hi. unfold held.
  assert (forall m k, stream i (flat_map (fun i => map (pair i) (pend s i)) (seq k m)) =
            if (k <=? i)%nat && (i <? k + m)%nat then pend s i else []) as H.
  { induction m as [|m IH]; intros k; cbn [seq flat_map].
    - destruct (Nat.leb_spec k i), (Nat.ltb_spec i (k + 0)); cbn; auto; lia.
    - rewrite stream_app, IH. unfold stream.
      assert (forall l : list E, map snd (filter (fun ie => (fst ie =? i)%nat) (map (pair k) l)) =
                if Nat.eq_dec k i then l else []) as ->.
      { induction l as [|x l IHl]; cbn; [now destruct (Nat.eq_dec k i)|].
        destruct (Nat.eqb_spec k i), (Nat.eq_dec k i); cbn; congruence. }
      destruct (Nat.eq_dec k i) as [Hk|Hk];
        destruct (Nat.leb_spec k i), (Nat.leb_spec (S k) i), (Nat.ltb_spec i (k + S m)), (Nat.ltb_spec i (S k + m));
        cbn [andb app]; rewrite ?app_nil_r; try lia; subst; auto. }
  rewrite H. destruct (Nat.leb_spec 0 i), (Nat.ltb_spec i (0 + n c)); cbn; auto; lia.
Qed.

Lemma idle_G s h1 base : Inv stamp c s -> pivot s = None -> covers h1 ->
  (forall i, (i < n c)%nat -> cut (stream i h1) (pend s i) []) ->
  (forall i, (i < n c)%nat -> (base i + length (pend s i) = length (stream i h1))%nat) ->
  (strict -> forall i, nth i (dropped s) false = false) ->
  GInv (unread h1) base s.
Proof.
  intros HI Hp HC Hcut Hb Hd. split; [exact Hd|]. rewrite Hp. exists base. split.
  - intros i Hi. destruct (Hcut i Hi) as (d & Ed & _). destruct (HC i Hi) as (r & Er).
    specialize (Hb i Hi). unfold unread. rewrite Ed, app_length in Hb. rewrite Er, Ed.
    assert (length d = base i) as Hl by lia. rewrite <- app_assoc, <- Hl.
    rewrite skipn_app, skipn_all, Nat.sub_diag. cbn [app]. rewrite app_assoc.
    rewrite (skipn_app (length (d ++ pend s i))), skipn_all, Nat.sub_diag. reflexivity.
  - apply from_refl; auto.
  - intros _ y Y _ Hy _. exact Hy.
Qed.

Lemma idle_run s h s' outs :
  well_indexed (n c) h -> Inv stamp c s -> pivot s = None ->
  (forall i, (i < n c)%nat -> prefix (pend s i ++ stream i h) (F i)) ->
  (strict -> (forall i, nth i (dropped s) false = false) /\ no_overflow_from stamp c s h) ->
  run stamp c s h = Ok (s', outs) ->
  exists base', sets_from (n c) PSet (fun _ => 0%nat) outs base'.
Proof.
  intros HI HInv Hp HC Hst Hr.
  destruct (run_G_from h s (held s) (fun _ => 0%nat) s' outs) as (base' & HB & _); eauto.
  - unfold Approx_Opt.SInv. now rewrite Hp.
  - intros i Hi. rewrite stream_app, stream_held by auto. auto.
  - apply idle_G; auto.
    + intros i Hi. rewrite stream_held by auto. destruct (HC i Hi) as (r & Er).
      exists (stream i h ++ r). now rewrite Er, app_assoc.
    + intros i Hi. rewrite stream_held by auto. apply cut_refl.
    + intros i Hi. rewrite stream_held by auto. reflexivity.
    + intros H. now apply Hst.
  - intros H. now apply Hst.
Qed.
End Idle.

(** No search is in progress if some input holds nothing. *)
Lemma idle_if_empty c s i : Inv stamp c s -> (i < n c)%nat -> pend s i = [] -> pivot s = None.
Proof.
  intros [HW HP _] Hi He. unfold PInv in HP. destruct (pivot s) as [p|]; auto.
  destruct HP as (_ & (cand & _ & HL & HC) & _). specialize (HC i Hi).
  fold (pend s i) in HC. rewrite He in HC. cbn in HC. apply nth_error_None in HC. lia.
Qed.
End P.
