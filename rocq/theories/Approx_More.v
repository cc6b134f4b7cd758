(** Consequences at rest for ApproximateTime: progress, perfect matches, warnings,
    copies, a sufficient condition for not overflowing. *)
From Coq Require Import List Arith ZArith Lia Bool Permutation Sorted.
From Verif Require Import Base RclTime Trace Approx_Model Approx_Spec Approx_Proofs Approx_Opt.
Import ListNotations.
Local Open Scope Z_scope.

Section M.
Context {E : Type} (stamp : E -> Z) (c : cfg).
Notation state := (state E).
Notation N := (n c).

Lemma some_empty s : Inv stamp c s -> exists i, (i < N)%nat /\ dq s i = [].
Proof.
  intros [[W1 W2 W3 W4] _ Hnum].
  assert (exists i, (i < length (deques s))%nat /\ nth i (deques s) [] = []) as (i & Hi & He);
    [|exists i; split; [lia|auto]].
  rewrite W4, <- W1 in Hnum. clear - Hnum. induction (deques s) as [|q qs IH]; cbn in *; [lia|].
  destruct q; cbn in *.
  - exists O. split; [lia|auto].
  - destruct IH as (i & Hi & He); [lia|]. exists (S i). split; [lia|auto].
Qed.

Lemma run_at_rest h s outs :
  (0 < N)%nat -> (0 < queue_size c)%nat -> well_indexed N h ->
  run stamp c (init c) h = Ok (s, outs) -> Inv stamp c s.
Proof.
  intros Hn Hq HI Hr. destruct (run_Inv stamp c h Hn Hq HI) as (s' & o' & Er & HInv).
  rewrite Hr in Er. injection Er as <- <-. exact HInv.
Qed.

(* ------------------------------------------------------------------ *)
(** Progress and perfect matches for ordered streams *)
Section Ordered.
Variables (tol num den : Z) (h : list (nat * E)) (s : state) (outs : list (list E)).
Hypothesis SC : scaling tol num den (scale c).
Hypothesis Hn : (0 < N)%nat.
Hypothesis Hq : (0 < queue_size c)%nat.
Hypothesis HI : well_indexed N h.
Hypothesis Hr : run stamp c (init c) h = Ok (s, outs).
Notation F := (fun i => stream i h).
Hypothesis HF : respects stamp N (bound c) F.
Hypothesis Hno : no_overflow stamp c h.

Notation nxt := (fun b x X => next_set stamp N F num den (max_interval c) tol b x X /\
                              found_set stamp N F (max_interval c) (scale c) b x X).

Lemma sets_from_impl (P Q : (nat -> nat) -> (nat -> nat) -> list E -> Prop) base o base' :
  (forall b x X, P b x X -> Q b x X) -> sets_from N P base o base' -> sets_from N Q base o base'.
Proof. intros HPQ. induction 1; econstructor; eauto. Qed.

Lemma rest_inv : SInv stamp c num den s /\
  exists base, sets_from N nxt (fun _ => 0%nat) outs base /\
    GInv stamp c tol num den F True (unread F h) base s.
Proof.
  destruct (run_G stamp c tol num den SC F HF Hn True Hq h HI s outs Hr) as (HS & HG).
  split; auto. destruct HG as (base & Hc & HG); auto.
  - intros i Hi. exists []. now rewrite app_nil_r.
  - exists base. split; auto. eapply sets_from_impl; [|exact Hc].
    intros b x X (_ & H). auto.
Qed.

Lemma unread_nil i : unread F h i = [].
Proof. unfold unread. apply skipn_all. Qed.

Lemma pos_empty b i : pos c F b (unread F h) s -> (i < N)%nat -> pend s i = [] ->
  (length (stream i h) <= b i)%nat.
Proof.
  intros HP Hi He. specialize (HP i Hi). rewrite He, unread_nil in HP. cbn in HP.
  destruct (le_lt_dec (length (stream i h)) (b i)); auto.
  exfalso. apply (f_equal (@length E)) in HP. rewrite skipn_length in HP. cbn in HP. lia.
Qed.

Lemma progress : exists base, sets_from N nxt (fun _ => 0%nat) outs base /\
  forall f Fst, first_admissible stamp N F (max_interval c) base f Fst ->
    exists i, (i < N)%nat /\ forall e, In e (stream i h) -> stamp e <= finish stamp Fst.
Proof.
  destruct rest_inv as (HS & base & Hc & HD & HG). exists base. split; auto.
  intros f Fst HA. pose proof (run_at_rest h s outs Hn Hq HI Hr) as HInv.
  destruct (some_empty s HInv) as (i & Hi & Hdq). destruct HInv as [HW HP _].
  unfold PInv in HP. unfold SInv in HS. destruct (pivot s) as [p|] eqn:Ep.
  - destruct HG as (Hlt & b & a & HO & _). destruct HP as (Hp & HC & Hpp & x & Hx & Hpt).
    destruct HS as (_ & _ & _ & HPast).
    destruct (oi_A _ _ _ _ _ _ _ _ _ _ _ _ _ HO) as (A & HA1 & HA2 & HA3 & HA4).
    assert (first_admissible stamp N F (max_interval c) base a A) as HAa.
    { split; auto.
      - apply (oi_base _ _ _ _ _ _ _ _ _ _ _ _ _ HO).
      - apply (oi_adm _ _ _ _ _ _ _ _ _ _ _ _ _ HO I). }
    destruct (first_admissible_det stamp N F (max_interval c) _ _ _ _ _ HA HAa) as (-> & _).
    rewrite HA2. exists i. split; auto. intros e He.
    pose proof (oi_pos _ _ _ _ _ _ _ _ _ _ _ _ _ HO i Hi) as HPos.
    rewrite unread_nil, app_nil_r in HPos. unfold pend in HPos. rewrite Hdq, app_nil_r in HPos.
    assert (pa s i <> []) as Hne.
    { intros He0. destruct HC as (cand & C1 & C2 & C3). specialize (C3 i Hi).
      rewrite He0, Hdq in C3. cbn in C3. apply nth_error_None in C3. lia. }
    apply In_nth_error in He as (k & Hk).
    destruct (pa s i) as [|z l] eqn:Epa using rev_ind; [congruence|]. clear IHl.
    assert (nth_error (stream i h) (b i + length l) = Some z) as Hz.
    { rewrite <- nth_error_skipn, HPos, nth_error_app2, Nat.sub_diag by lia. reflexivity. }
    assert (k <= b i + length l)%nat as Hkl.
    { assert (k < length (stream i h))%nat by (apply nth_error_Some; congruence).
      apply (f_equal (@length E)) in HPos. rewrite skipn_length, app_length in HPos. cbn in HPos. lia. }
    pose proof (mono stamp c F HF Hn i k (b i + length l) e z Hi Hkl Hk Hz).
    pose proof (HPast i z ltac:(rewrite Epa; apply in_or_app; right; cbn; auto)). lia.
  - destruct HG as (b & HNI). exfalso.
    assert (pend s i = []) as Hpe by (unfold pend; now rewrite HP, Hdq).
    pose proof (pos_empty b i (ni_pos _ _ _ _ _ _ _ _ HNI) Hi Hpe) as Hlen.
    pose proof (ni_adm _ _ _ _ _ _ _ _ HNI I f Fst (fa_sel _ _ _ _ _ _ _ HA) (fa_from _ _ _ _ _ _ _ HA)
                  (fa_span _ _ _ _ _ _ _ HA) i Hi) as Hfi.
    destruct (selects_at c F Hn f Fst i (fa_sel _ _ _ _ _ _ _ HA) Hi) as (e & E1 & _).
    assert (f i < length (stream i h))%nat by (apply nth_error_Some; congruence). lia.
Qed.

Lemma start_finish_eq (X : list E) t : X <> [] -> (forall e, In e X -> stamp e = t) ->
  start stamp X = t /\ finish stamp X = t.
Proof.
  intros Hne H. destruct (start_in stamp X Hne) as (a & A1 & A2).
  destruct (finish_in stamp X Hne) as (b & B1 & B2). rewrite <- A2, <- B2. auto.
Qed.

Lemma no_perfect_match_left : 0 <= max_interval c ->
  exists base, sets_from N nxt (fun _ => 0%nat) outs base /\
  ~ exists t, forall i, (i < N)%nat -> exists e, nth_error (stream i h) (base i) = Some e /\ stamp e = t.
Proof.
  intros Hmax. destruct rest_inv as (HS & base & Hc & HD & HG). exists base. split; auto.
  intros (t & Ht). pose proof (run_at_rest h s outs Hn Hq HI Hr) as HInv.
  destruct (some_empty s HInv) as (i & Hi & Hdq). destruct HInv as [HW HP _].
  destruct (selects_exists c F base) as (X & HX).
  { intros j Hj. destruct (Ht j Hj) as (e & -> & _). discriminate. }
  assert (forall e, In e X -> stamp e = t) as HXt.
  { intros e He. destruct (selects_in c F _ _ e HX He) as (j & Hj & Ej).
    destruct (Ht j Hj) as (e' & E1 & E2). congruence. }
  destruct (start_finish_eq X t (selects_ne c F Hn _ _ HX) HXt) as (Est & Eft).
  assert (span stamp X <= max_interval c) as Hsp by (unfold span; lia).
  unfold PInv in HP. unfold SInv in HS. destruct (pivot s) as [p|] eqn:Ep.
  - destruct HG as (Hlt & b & a & HO & _). destruct HP as (Hp & HC & Hpp & x & Hx & Hpt).
    destruct HS as ((cand & S1 & S2 & S3) & S4 & _).
    destruct (oi_A _ _ _ _ _ _ _ _ _ _ _ _ _ HO) as (A & HA1 & HA2 & HA3 & HA4).
    pose proof (oi_adm _ _ _ _ _ _ _ _ _ _ _ _ _ HO I base X HX (from_refl c Hn base) Hsp) as Hab.
    pose proof (oi_base _ _ _ _ _ _ _ _ _ _ _ _ _ HO) as Hba.
    assert (A = X) as -> by (eapply (selects_det N F a base); eauto; apply from_antisym; auto).
    destruct HA4 as [Hf|Hf].
    + assert (selects N F b cand) as HSc.
      { eapply candidate_selects; eauto. apply (oi_pos _ _ _ _ _ _ _ _ _ _ _ _ _ HO). }
      assert (cand = X) as ->.
      { eapply (selects_det N F b a); eauto. apply from_antisym; auto.
        apply (oi_ab _ _ _ _ _ _ _ _ _ _ _ _ _ HO). }
      lia.
    + rewrite Est, Eft in *. pose proof (sc_den _ _ _ _ SC). pose proof (sc_num _ _ _ _ SC).
      assert (t - cstart s >= 0) by lia. assert (t - cend s <= 0) by lia. nia.
  - destruct HG as (b & HNI).
    assert (pend s i = []) as Hpe by (unfold pend; now rewrite HP, Hdq).
    pose proof (pos_empty b i (ni_pos _ _ _ _ _ _ _ _ HNI) Hi Hpe) as Hlen.
    pose proof (ni_adm _ _ _ _ _ _ _ _ HNI I base X HX (from_refl c Hn base) Hsp i Hi) as Hfi.
    destruct (Ht i Hi) as (e & E1 & _).
    assert (base i < length (stream i h))%nat by (apply nth_error_Some; congruence). lia.
Qed.
End Ordered.

(* ------------------------------------------------------------------ *)
(** Perfect matches, for arbitrary stamps *)
Lemma perfect_match_now s i e s' o X t :
  (0 < N)%nat -> (0 < queue_size c)%nat -> Inv stamp c s -> (i < N)%nat ->
  pivot s = None -> (forall j, nth j (dropped s) false = false) ->
  0 <= max_interval c -> 0 <= scale c 0 ->
  length X = N ->
  (forall j, (j < N)%nat ->
     nth_error X j = hd_error (pend s j ++ (if Nat.eq_dec i j then [e] else []))) ->
  (forall x, In x X -> stamp x = t) ->
  add stamp c s (i, e) = Ok (s', o) -> exists o', o = X :: o'.
Proof.
  intros Hn Hq HInv Hi Hpv Hdr Hmax Hsc HL HX Ht Ha.
  destruct (add_cases stamp c s i e Hn Hq HInv Hi) as (s1 & o1 & s2 & o2 & E1 & E2 & Ea & J1 & J2 & A & B).
  rewrite Ha in Ea. injection Ea as <- ->. destruct HInv as [HW HP Hnum].
  unfold PInv in HP. rewrite Hpv in HP.
  assert (forall j, (j < N)%nat -> hd_error (dq (push i e s) j) = nth_error X j) as Hhd.
  { intros j Hj. rewrite HX by auto. rewrite (push_dq c) by auto. unfold pend. rewrite HP. cbn [app].
    destruct (Nat.eq_dec i j); [reflexivity|]. now rewrite app_nil_r. }
  assert (forall j, (j < N)%nat -> dq (push i e s) j <> []) as Hne.
  { intros j Hj H0. specialize (Hhd j Hj). rewrite H0 in Hhd. cbn in Hhd. symmetry in Hhd.
    apply nth_error_None in Hhd. lia. }
  destruct A as [(w & -> & ->)|A].
  - exfalso. destruct (some_empty _ J1) as (j & Hj & Hdj). apply (Hne j Hj). exact Hdj.
  - inversion A as [s0 H0|s0 hs ei et si st s3 o3 s4 o4 HW0 HP0 Hnum0 HH HXX HK HSt]; subst.
    + exfalso. destruct (some_empty _ J1) as (j & Hj & Hdj). apply (Hne j Hj). exact Hdj.
    + assert (hs = X) as ->.
      { destruct HH as (L1 & L2). apply (list_eq_nth (hd e hs)); [lia|].
        intros j Hj. rewrite L1 in Hj. specialize (L2 j Hj). rewrite Hhd in L2 by auto.
        rewrite (nth_error_nth' hs (hd e hs)) in L2 by lia.
        rewrite (nth_error_nth' X (hd e hs)) in L2 by lia. congruence. }
      assert (st = t /\ et = t) as (-> & ->).
      { destruct (ex_st _ _ _ _ _ _ HXX) as (y & Y1 & <-). destruct (ex_et _ _ _ _ _ _ HXX) as (z & Z1 & <-).
        split; apply Ht; eapply nth_error_In; eauto. }
      destruct HK as [Hpv' Hc | p cand Hc s5 Hp2 Hc2 HJ | p Hc s5 Hp2 Hne' Hag].
      * exfalso. destruct Hc as [Hc|Hc]; [lia|]. cbn in Hc. rewrite Hdr in Hc. discriminate.
      * unfold s5, choose in Hc2. cbn [push set_queues clear_dropped pivot mv candidate] in Hc2.
        rewrite Hpv in Hc2. injection Hc2 as <-. eexists. cbn [app]. reflexivity.
      * exfalso. unfold s5, choose in Hag. cbn [push set_queues clear_dropped pivot mv] in Hag.
        rewrite Hpv in Hag. cbn [cstart cend ptime mv set_queues] in Hag.
        rewrite !Z.sub_diag in Hag. lia.
Qed.

(* ------------------------------------------------------------------ *)
(** Nothing overflows while the backlog is small *)
Definition small_backlog (h : list (nat * E)) : Prop :=
  forall h1 i e h2, h = h1 ++ (i, e) :: h2 ->
  forall s o, run stamp c (init c) h1 = Ok (s, o) ->
    (length (stream i (h1 ++ [(i, e)])) <= queue_size c + length o)%nat.

Lemma column_length i (o : list (list E)) : Forall (fun X => length X = N) o -> (i < N)%nat ->
  length (column i o) = length o.
Proof.
  intros HF Hi. induction HF as [|X o HX HF IH]; cbn [length]; auto.
  rewrite <- IH. unfold column. cbn [flat_map]. rewrite app_length.
  destruct (nth_error X i) eqn:Ex; [reflexivity|]. apply nth_error_None in Ex. lia.
Qed.

Lemma small_no_overflow h : (0 < N)%nat -> (0 < queue_size c)%nat -> well_indexed N h ->
  small_backlog h -> no_overflow stamp c h.
Proof.
  intros Hn Hq HI HB h1 i e h2 Eh s o s1 o1 Hr Ha. specialize (HB h1 i e h2 Eh s o Hr).
  assert (well_indexed N h1) as HI1.
  { intros j x Hj. apply (HI j x). rewrite Eh. apply in_or_app; auto. }
  assert (i < N)%nat as Hi by (apply (HI i e); rewrite Eh; apply in_or_app; cbn; auto).
  pose proof (run_at_rest h1 s o Hn Hq HI1 Hr) as HInv.
  destruct (run_accounting stamp c h1 s o Hn Hq HI1 Hr) as (HFo & HA).
  destruct (HA i Hi) as (HSub & _). apply subseq_length in HSub.
  rewrite app_length in HSub. rewrite (column_length i o HFo Hi) in HSub.
  destruct (add_cases stamp c s i e Hn Hq HInv Hi) as (s1' & o1' & s2 & o2 & E1 & E2 & Ea & J1 & J2 & A & B).
  rewrite Ha in E1. injection E1 as <- <-.
  rewrite (nth_pending c) by (destruct J1; auto). fold (pend s1 i).
  assert (length (pend s1 i) <= length (pend (push i e s) i))%nat as HL.
  { destruct A as [(w & -> & ->)|A]; [cbn; lia|]. apply (steps_pend stamp c _ _ _ i Hn A Hi). }
  rewrite (push_pend c) in HL by (auto; destruct HInv; auto).
  destruct (Nat.eq_dec i i); [|congruence]. rewrite app_length in HL. cbn in HL.
  rewrite stream_app, app_length in HB.
  assert (length (stream i [(i, e)]) = 1%nat) as H1 by (unfold stream; cbn; now rewrite Nat.eqb_refl).
  lia.
Qed.

(* ------------------------------------------------------------------ *)
(** Warnings and suffixes *)
Definition violation (i : nat) (l : list E) : Prop :=
  exists k e e', nth_error l k = Some e /\ nth_error l (S k) = Some e' /\
    (stamp e' < stamp e \/ stamp e' - stamp e < bound c i).

Lemma step_warned s hs ei et si st s' o :
  step_kind stamp c s hs ei et si st s' o -> warned s' = warned s.
Proof.
  destruct 1 as [Hpv Hc | p cand Hc s2 Hp2 Hc2 HJ | p Hc s2 Hp2 Hne' Hag]; [reflexivity| |];
    unfold s2, choose; cbn [clear_dropped pivot]; destruct (pivot s);
    try destruct (better_heads _ _ _ _); reflexivity.
Qed.

Lemma steps_warned s o s' : steps stamp c s o s' -> warned s' = warned s.
Proof. induction 1; auto. rewrite IHsteps. eapply step_warned; eauto. Qed.

Lemma steps_suffix s o s' i : (0 < N)%nat -> steps stamp c s o s' -> (i < N)%nat ->
  exists d, pend s i = d ++ pend s' i.
Proof.
  intros Hn HS Hi. induction HS as [s|s hs ei et si st s1 o1 s2 o2 HW HP Hnum HH HX HK HS IH].
  - exists []. reflexivity.
  - destruct IH as (d2 & E2).
    destruct (step_pend stamp c s hs ei et si st s1 o1 i HW HP Hn HH HX HK Hi) as ((d & Ed) & _).
    exists (d ++ column i o1 ++ d2). rewrite Ed, E2, <- !app_assoc. reflexivity.
Qed.

Lemma violation_app i l l' : violation i l -> violation i (l ++ l').
Proof.
  intros (k & e & e' & H1 & H2 & H3). exists k, e, e'.
  split; [rewrite nth_error_app1; auto; apply nth_error_Some; congruence|].
  split; [rewrite nth_error_app1; auto; apply nth_error_Some; congruence|auto].
Qed.

Lemma run_warned h s outs :
  (0 < N)%nat -> (0 < queue_size c)%nat -> well_indexed N h ->
  run stamp c (init c) h = Ok (s, outs) ->
  forall i, (i < N)%nat ->
    (exists d, stream i h = d ++ pend s i) /\
    (nth i (warned s) false = true -> violation i (stream i h)).
Proof.
  intros Hn Hq HI Hr. revert h HI s outs Hr.
  refine (run_invariant stamp c
            (fun h s outs => forall i, (i < N)%nat ->
              (exists d, stream i h = d ++ pend s i) /\
              (nth i (warned s) false = true -> violation i (stream i h))) Hn Hq _ _).
  - intros i Hi. split.
    + exists []. unfold pend, pa, dq. cbn. now rewrite !nth_repeat_nil.
    + cbn. intros H. exfalso. revert H. generalize N. intros k; revert i Hi.
      clear. intros i _. revert i; induction k; destruct i; cbn; intros; try discriminate; eauto.
  - intros h s outs i e s1 o1 s2 o2 Hr HInv IH Hi E1 E2 J1 J2 A B j Hj.
    destruct HInv as [HW HP Hnum].
    assert (forall k, (k < N)%nat -> exists d, stream k (h ++ [(i, e)]) = d ++ pend (push i e s) k) as HSp.
    { intros k Hk. destruct (IH k Hk) as ((d & Ed) & _). exists d.
      rewrite stream_app, Ed, (push_pend c) by auto.
      destruct (Nat.eq_dec i k) as [->|Hne].
      - unfold stream. cbn. rewrite Nat.eqb_refl. cbn. now rewrite <- app_assoc.
      - unfold stream. cbn. destruct (Nat.eqb_spec i k); [congruence|]. cbn. now rewrite app_nil_r. }
    assert (exists d, pend (push i e s) j = d ++ pend s1 j) as (d1 & Ed1).
    { destruct A as [(w & -> & ->)|A]; [exists []; reflexivity|]. now apply (steps_suffix _ _ _ j Hn A). }
    assert (exists d, pend s1 j = d ++ pend s2 j) as (d2 & Ed2).
    { destruct B as [(_ & -> & ->)|(_ & B)]; [exists []; reflexivity|].
      destruct (steps_suffix _ _ _ j Hn B Hj) as (d & Ed).
      destruct (drop_pend c i s1 j (inv_wf _ _ _ J1) Hi) as (D1 & D2).
      unfold pend at 1 in Ed. rewrite D1, D2 in Ed. cbn [app] in Ed.
      destruct (Nat.eq_dec i j) as [->|]; [|eauto].
      exists (firstn 1 (pend s1 j) ++ d). rewrite <- app_assoc, <- Ed. symmetry. apply firstn1_tl. }
    split.
    + destruct (HSp j Hj) as (d & Ed). exists (d ++ d1 ++ d2).
      now rewrite Ed, Ed1, Ed2, <- !app_assoc.
    + assert (warned s2 = warned s1) as ->.
      { destruct B as [(_ & -> & ->)|(_ & B)]; auto. apply (steps_warned _ _ _ B). }
      intros Hw.
      assert (nth j (warned s) false = true -> violation j (stream j (h ++ [(i, e)]))) as Hold.
      { intros Hw'. rewrite stream_app. apply violation_app. now apply (IH j Hj). }
      assert (dq s i = [] \/ dq s i <> []) as [Hq0|Hq0]
        by (destruct (dq s i); [left; reflexivity|right; discriminate]).
      * (* empty deque: no check *)
        apply Hold. rewrite <- Hw. f_equal. symmetry.
        unfold add_process in E1. rewrite (nth_error_nth' _ []) in E1 by (destruct HW; lia).
        fold (dq s i) in E1. rewrite Hq0 in E1. cbn [is_nil app] in E1.
        destruct A as [(w & -> & ->)|A]; [|apply (steps_warned _ _ _ A)].
        destruct (Nat.eqb _ _) in E1; 
          [|apply (f_equal (fun r => match r with Ok (x, _) => warned x | Err _ => [] end)) in E1;
            symmetry; exact E1].
        destruct (process_total stamp c (push i e s) Hn (push_WF c i e s HW) (push_PInv stamp c i e s HW Hi HP))
          as (s' & o' & Ep & HSt & _).
        assert (push i e s = set_queues (upd i [e] (deques s)) (S (Approx_Model.num s)) (past s) s) as Epush.
        { unfold push. rewrite Hq0. cbn [app]. f_equal. 
          pose proof (count_upd (deques s) i [e] ltac:(destruct HW; lia)) as HC.
          destruct HW as [W1 W2 W3 W4]. fold (dq s i) in HC. rewrite Hq0 in HC. unfold nz in HC. cbn [is_nil] in HC. lia. }
        rewrite Epush in Ep at 1 2. rewrite Ep in E1. injection E1 as -> _.
        apply (steps_warned _ _ _ HSt).
      * unfold add_process in E1. rewrite (nth_error_nth' _ []) in E1 by (destruct HW; lia).
        fold (dq s i) in E1. destruct (dq s i) as [|x0 q0] eqn:Eq; [congruence|].
        cbn [is_nil] in E1.
        apply (f_equal (fun r => match r with Ok (x, _) => warned x | Err _ => [] end)) in E1.
        cbn [fst snd] in E1. rewrite <- E1 in Hw.
        unfold check_inter_message_bound in Hw. cbn [set_queues warned past deques] in Hw.
        destruct (nth i (warned s) false) eqn:Ewi; [auto|].
        destruct (bound_violated stamp c i (nth i (past s) []) (nth i (upd i ((x0 :: q0) ++ [e]) (deques s)) [])) eqn:Ebv; [|auto].
        cbn [warned] in Hw. destruct (Nat.eq_dec i j) as [->|Hne]; [|rewrite nth_upd_neq in Hw by congruence; auto].
        rewrite nth_upd_eq in Ebv by (destruct HW; lia).
        destruct (HSp j Hj) as (d & Ed). rewrite (push_pend c) in Ed by auto.
        destruct (Nat.eq_dec j j); [|congruence]. unfold pend in Ed. rewrite Eq in Ed.
        unfold bound_violated in Ebv. rewrite rev_app_distr in Ebv. cbn [rev app] in Ebv.
        assert (exists l y, x0 :: q0 = l ++ [y]) as (l & y & Ely).
        { destruct (exists_last (l := x0 :: q0)) as (l & y & Ely); [discriminate|eauto]. }
        change (rev q0 ++ [x0]) with (rev (x0 :: q0)) in Ebv. rewrite Ely in Ebv.
        rewrite rev_app_distr in Ebv. cbn [rev app] in Ebv.
        rewrite Ely in Ed. exists (length (d ++ pa s j ++ l)), y, e.
        assert (stream j (h ++ [(j, e)]) = (d ++ pa s j ++ l) ++ [y; e]) as ->
          by (rewrite Ed, <- !app_assoc; reflexivity).
        split; [rewrite nth_error_app2, Nat.sub_diag by lia; reflexivity|].
        split.
        { rewrite nth_error_app2 by lia. replace (S _ - _)%nat with 1%nat by lia. reflexivity. }
        destruct (Z.ltb_spec (stamp e) (stamp y)); [left; auto|].
        right. now apply Z.ltb_lt.
Qed.

(* ------------------------------------------------------------------ *)
(** A copy made while no search is in progress is the policy itself. *)
Lemma step_candidate s hs ei et si st s' o :
  step_kind stamp c s hs ei et si st s' o ->
  (pivot s = None -> candidate s = None) -> pivot s' = None -> candidate s' = None.
Proof.
  destruct 1 as [Hpv Hc | p cand Hc s2 Hp2 Hc2 HJ | p Hc s2 Hp2 Hne' Hag]; intros H0 H1.
  - cbn in *. auto.
  - reflexivity.
  - congruence.
Qed.

Lemma steps_candidate s o s' : steps stamp c s o s' ->
  (pivot s = None -> candidate s = None) -> pivot s' = None -> candidate s' = None.
Proof. induction 1; auto. intros Hc. apply IHsteps. eapply step_candidate; eauto. Qed.

Lemma run_candidate h s outs :
  (0 < N)%nat -> (0 < queue_size c)%nat -> well_indexed N h ->
  run stamp c (init c) h = Ok (s, outs) -> pivot s = None -> candidate s = None.
Proof.
  intros Hn Hq HI Hr. revert h HI s outs Hr.
  refine (run_invariant stamp c (fun h s outs => pivot s = None -> candidate s = None) Hn Hq _ _).
  - reflexivity.
  - intros h s outs i e s1 o1 s2 o2 Hr HInv IH Hi E1 E2 J1 J2 A B.
    assert (pivot s1 = None -> candidate s1 = None) as H1.
    { destruct A as [(w & -> & ->)|A]; [exact IH|]. apply (steps_candidate _ _ _ A). exact IH. }
    destruct B as [(_ & -> & ->)|(_ & B)]; auto.
    apply (steps_candidate _ _ _ B). cbn. intros _. destruct (pivot s1); auto.
Qed.

Lemma copy_idle h s outs :
  (0 < N)%nat -> (0 < queue_size c)%nat -> well_indexed N h ->
  run stamp c (init c) h = Ok (s, outs) -> pivot s = None -> copy s = s.
Proof.
  intros Hn Hq HI Hr Hp. pose proof (run_candidate h s outs Hn Hq HI Hr Hp) as Hc.
  destruct s. cbn in *. unfold copy. cbn. now rewrite Hc.
Qed.
End M.
