(** ApproximateTime with throwing callbacks: no failure, sound deliveries. *)
From Coq Require Import List Arith ZArith Lia Bool.
From Verif Require Import Base Trace Approx_Model Approx_Spec Approx_Proofs Throw_Model.
Import ListNotations.
Local Open Scope Z_scope.

Section P.
Context {E : Type} (stamp : E -> Z) (c : cfg).
Notation state := (state E).
Notation N := (n c).
Notation WF := (WF c).
Notation has_candidate := (has_candidate c).
Notation heads := (heads c).
Notation extremes := (extremes stamp).
Notation choose := (choose c).
Notation vrel := (vrel c).
Notation pend := (pend (E := E)).

Definition head_from (pt : Z) (q : list E) : Prop := exists x, hd_error q = Some x /\ pt <= stamp x.

(** With a pivot, either the head of its deque is not before the pivot time, or those of all
    other deques are not. *)
Definition TInv (s : state) : Prop :=
  match pivot s with
  | None => forall i, pa s i = []
  | Some p =>
      (p < N)%nat /\ has_candidate s /\
      (head_from (ptime s) (dq s p) \/
       forall j, (j < N)%nat -> j <> p -> head_from (ptime s) (dq s j))
  end.

Lemma publish_t_ok th (s : state) :
  WF s -> has_candidate s ->
  exists cand, candidate s = Some cand /\
    publish_t th s = if th 0%nat then Ok (s, [cand], true) else Ok (pub s, [cand], false).
Proof.
  intros HW HC. destruct (publish_ok c s HW HC) as (cand & E1 & E2). exists cand. split; auto.
  unfold publish_t. rewrite E1, E2. destruct (th 0%nat); reflexivity.
Qed.

Lemma virtual_search_t_ok th (s : state) p x :
  WF s -> (0 < N)%nat -> pivot s = Some p -> (p < N)%nat -> has_candidate s ->
  forall fuel vs mvs,
  vrel s vs mvs -> (total (deques vs) < fuel)%nat ->
  hd_error (dq vs p) = Some x -> ptime s <= stamp x ->
  exists cand, candidate s = Some cand /\
    ((th 0%nat = false /\ virtual_search_t stamp c fuel th (num s) mvs vs = Ok (pub s, [cand], false)) \/
     (th 0%nat = true /\ exists vs' mvs', vrel s vs' mvs' /\ hd_error (dq vs' p) = Some x /\
        virtual_search_t stamp c fuel th (num s) mvs vs = Ok (vs', [cand], true)) \/
     virtual_search_t stamp c fuel th (num s) mvs vs = Ok (s, [], false)).
Proof.
  intros HW Hn Hp HpN HC. induction fuel as [|fuel IH]; intros vs mvs HV HF Hx Hpt; [lia|].
  pose proof (vrel_fields c _ _ _ HV) as (F1 & F2 & F3 & F4 & F5 & F6 & F7).
  pose proof HV as (_ & HWv & HLm & HR).
  pose proof (has_candidate_vrel c _ _ _ HV HC) as HCv.
  pose proof HWv as [L1 L2 L3 L4].
  cbn [virtual_search_t]. unfold virtual_times.
  destruct (virtual_times_ok stamp c vs p ltac:(congruence) (past vs) (deques vs) 0 ltac:(lia))
    as (ts & -> & HLt & Ht).
  { intros i Hi. destruct HCv as (cand & _ & HLc & HN).
    specialize (HN i ltac:(lia)). unfold pa, dq in HN. intros HE. rewrite HE in HN. cbn in HN.
    apply nth_error_None in HN. lia. }
  cbn [bind].
  pose proof (boundary_spec true ts ltac:(lia)) as (B1 & B2 & B3).
  pose proof (boundary_spec false ts ltac:(lia)) as (C1 & C2 & C3).
  destruct (boundary true ts) as (ei & et). destruct (boundary false ts) as (si & st).
  cbn [fst snd] in *.
  rewrite F2, F3, F4, F5, Hp.
  destruct (publish_t_ok th vs HWv HCv) as (cand & Ec & Epub). rewrite F1 in Ec.
  destruct (Z.leb_spec (ptime s - cstart s) (scale c (et - cend s))) as [HP|HP].
  { exists cand. split; auto. rewrite Epub. destruct (th 0%nat).
    - right; left. split; auto. exists vs, mvs. auto.
    - left. split; auto. now rewrite (pub_vrel c s vs mvs). }
  destruct (Z.ltb_spec (scale c (et - cend s)) (st - cstart s)) as [HQ|HQ].
  { exists cand. split; auto. right; right. rewrite (recover_some_ok c s vs mvs) by auto. cbn [bind]. now rewrite Nat.eqb_refl. }
  assert (st < ptime s) as Hst by lia.
  assert (ptime s <= nth p ts 0) as Htp.
  { rewrite Ht by lia. cbn [Nat.add]. unfold vtime. unfold dq in Hx.
    destruct (nth p (deques vs) []); [discriminate|]. cbn in Hx. congruence. }
  destruct (Nat.eqb_spec si p) as [->|Hsp]; [lia|].
  destruct (Z.ltb_spec st (ptime s)); [|lia]. cbn [negb].
  assert (exists y q', dq vs si = y :: q' /\ stamp y = st) as (y & q' & Ey & Hy).
  { rewrite Ht in C2 by lia. cbn [Nat.add] in C2. unfold vtime in C2. unfold dq.
    destruct (nth si (deques vs) []) as [|y q'] eqn:Eq; [|exists y, q'; auto].
    destruct (rev (nth si (past vs) [])) as [|l rv] eqn:Er.
    - exfalso. destruct HCv as (cand' & _ & HLc & HN). specialize (HN si ltac:(lia)).
      unfold pa, dq in HN. apply (f_equal (@rev E)) in Er. rewrite rev_involutive in Er.
      cbn in Er. rewrite Eq, Er in HN. cbn in HN. apply nth_error_None in HN. lia.
    - rewrite F5 in C2. lia. }
  rewrite (move_front_ok c) by (try (rewrite Ey); auto; try discriminate; lia).
  cbn [bind].
  assert (vrel s (mv si vs) (upd si (S (nth si mvs 0%nat)) mvs)) as HV'.
  { split; [|split; [|split]].
    - unfold mv, set_queues. cbn. now rewrite F1, F2, F3, F4, F5, F6, F7.
    - now apply mv_WF.
    - rewrite upd_length. auto.
    - intros i Hi. destruct (HR i Hi) as (m & E1 & E2 & E3).
      rewrite (mv_pa c), (mv_dq c) by (auto; lia). destruct (Nat.eq_dec si i) as [->|Hne].
      + exists (m ++ [y]). rewrite Ey. cbn [firstn tl]. split; [now rewrite E1, app_assoc|].
        split; [rewrite <- app_assoc; cbn; now rewrite <- Ey|].
        rewrite nth_upd_eq by lia. rewrite app_length. cbn. lia.
      + exists m. split; auto. split; auto. rewrite nth_upd_neq by congruence. auto. }
  assert (total (deques (mv si vs)) < fuel)%nat as HF'.
  { unfold mv. cbn. pose proof (total_upd (deques vs) si (tl (dq vs si)) ltac:(lia)) as HT.
    unfold dq in *. rewrite Ey in HT |- *. cbn [tl length] in *. lia. }
  apply (IH (mv si vs) (upd si (S (nth si mvs 0%nat)) mvs) HV' HF'); auto.
  rewrite (mv_dq c) by (auto; lia). destruct (Nat.eq_dec si p); [congruence|]. exact Hx.
Qed.

(** ** one iteration *)
Inductive kind_t (s : state) (hs : list E) (ei : nat) (et : Z) (si : nat) (st : Z)
  : state -> list (list E) -> bool -> Prop :=
| kt_delete :
    pivot s = None ->
    kind_t s hs ei et si st (del si (clear_dropped ei s)) [] false
| kt_publish cand :
    let s2 := mv si (choose hs st et ei (clear_dropped ei s)) in
    candidate s2 = Some cand -> kind_t s hs ei et si st (pub s2) [cand] false
| kt_search p :
    let s2 := mv si (choose hs st et ei (clear_dropped ei s)) in
    pivot s2 = Some p -> si <> p -> head_from (ptime s2) (dq s2 p) ->
    kind_t s hs ei et si st s2 [] false
| kt_throw cand p vs mvs :
    let s2 := mv si (choose hs st et ei (clear_dropped ei s)) in
    candidate s2 = Some cand -> pivot s2 = Some p -> vrel s2 vs mvs ->
    (head_from (ptime s2) (dq vs p) \/ forall j, (j < N)%nat -> j <> p -> head_from (ptime s2) (dq vs j)) ->
    kind_t s hs ei et si st vs [cand] true.

Lemma choose_cand (hs : list E) ei et si st (s : state) :
  WF s -> TInv s -> heads s hs -> extremes hs ei et si st ->
  exists p, pivot (choose hs st et ei s) = Some p /\ (p < N)%nat /\ has_candidate (choose hs st et ei s) /\
    ((pivot s = None /\ p = ei /\ ptime (choose hs st et ei s) = et) \/ 
     (pivot s = Some p /\ ptime (choose hs st et ei s) = ptime s)).
Proof.
  intros HW HP [HL HH] HX.
  assert (forall p t, has_candidate (mkState (deques s) (num s) (map (fun _ => []) (past s)) (Some hs) st et
                    p t (dropped s) (warned s))) as HC.
  { intros p t. exists hs. cbn. split; auto. split; auto.
    intros i Hi. unfold pa. cbn. rewrite nth_map_nil. cbn. now apply HH. }
  unfold Approx_Proofs.choose. unfold TInv in HP. destruct (pivot s) as [p|] eqn:Ep.
  - exists p. destruct HP as (P1 & P2 & P3).
    destruct (better_heads c s st et).
    + cbn. auto 8.
    + rewrite Ep. auto 8.
  - exists ei. destruct HX as [X1 _ _ _ _]. rewrite HL in X1. cbn. auto 8.
Qed.

Lemma better_choice (hs : list E) ei et st (s : state) :
  pivot s <> None -> 0 <= scale c 0 -> ptime s <= st ->
  let s1 := choose hs st et ei s in
  ptime s1 - cstart s1 <= scale c (et - cend s1).
Proof.
  intros Hp H0 Hle s1. unfold s1, Approx_Proofs.choose. destruct (pivot s) as [p|]; [|congruence].
  destruct (better_heads c s st et) eqn:Eb; cbn.
  - replace (et - et) with 0 by lia. lia.
  - unfold better_heads in Eb. apply negb_false_iff, Z.leb_le in Eb. lia.
Qed.

Lemma conclude_t_ok th (hs : list E) ei et si st (s : state) :
  WF s -> TInv s -> (0 < N)%nat -> 0 <= scale c 0 -> heads s hs -> extremes hs ei et si st ->
  let s2 := mv si (choose hs st et ei s) in
  exists p cand, pivot s2 = Some p /\ candidate s2 = Some cand /\
    ((th 0%nat = false /\ conclude_t stamp c th si et s2 = Ok (pub s2, [cand], false)) \/
     (conclude_t stamp c th si et s2 = Ok (s2, [], false) /\ si <> p /\ head_from (ptime s2) (dq s2 p)) \/
     (exists vs mvs, conclude_t stamp c th si et s2 = Ok (vs, [cand], true) /\ vrel s2 vs mvs /\
        (head_from (ptime s2) (dq vs p) \/ forall j, (j < N)%nat -> j <> p -> head_from (ptime s2) (dq vs j)))).
Proof.
  intros HW HP Hn H0 HH HX. set (s1 := choose hs st et ei s). intros s2.
  destruct (choose_cand hs ei et si st s HW HP HH HX) as (p & Ep & HpN & HC & Hfrom). fold s1 in Ep, HC, Hfrom.
  assert (WF s1) as HW1 by (now apply choose_WF).
  assert (WF s2) as HW2 by (now apply mv_WF).
  assert (si < N)%nat as Hsi by (destruct HX, HH; lia).
  assert (has_candidate s2) as HC2 by (now apply has_candidate_mv).
  assert (pivot s2 = Some p) as Ep2 by exact Ep.
  destruct (publish_t_ok th s2 HW2 HC2) as (cand & Ec & Epub).
  assert (forall j, (j < N)%nat -> exists x, hd_error (dq s1 j) = Some x /\ nth_error hs j = Some x /\ st <= stamp x) as Hheads.
  { intros j Hj. destruct HH as [HL HH]. unfold s1, dq. rewrite choose_dq. fold (dq s j). rewrite <- HH by auto.
    destruct (nth_error hs j) as [x|] eqn:Ex; [|apply nth_error_None in Ex; lia].
    exists x. split; auto. split; auto. destruct HX as [_ _ _ _ Hall]. apply (Hall j x Ex). }
  assert (forall j, j <> si -> dq s2 j = dq s1 j) as Hother.
  { intros j Hj. destruct HW1. unfold s2. rewrite (mv_dq c) by auto. destruct (Nat.eq_dec si j); congruence. }
  (* where the pivot deque stands after the move *)
  assert (HT : si <> p ->
     (ptime s2 - cstart s2 <= scale c (et - cend s2) /\ 
      (head_from (ptime s2) (dq s2 p))) \/ head_from (ptime s2) (dq s2 p)).
  { intros Hne. rewrite (Hother p) by auto. change (ptime s2) with (ptime s1).
    destruct (Hheads p HpN) as (x & Hx & Hhs & Hst).
    destruct Hfrom as [(Epn & -> & Et)|(Eps & Et)].
    - right. exists x. split; auto. rewrite Et. destruct HX as [_ _ (e & Xe & Xt) _ _]. rewrite Xe in Hhs. injection Hhs as ->. lia.
    - unfold TInv in HP. rewrite Eps in HP. destruct HP as (_ & _ & [A|B]).
      + right. unfold s1, dq. rewrite choose_dq. fold (dq s p). fold s1. now rewrite Et.
      + left. destruct (B si Hsi Hne) as (y & Hy & Hley).
        assert (stamp y = st).
        { destruct HX as [_ _ _ (e & Xe & Xt) _]. destruct HH as [_ HH]. rewrite HH in Xe by auto. congruence. }
        split.
        * change (cstart s2) with (cstart s1). change (cend s2) with (cend s1).
          apply better_choice; auto; [congruence|lia].
        * exists x. split; auto. rewrite Et. lia. }
  exists p, cand. split; auto. split; auto.
  assert (HTh : Ok (s2, [cand], true) = Ok (s2, [cand], true) -> vrel s2 s2 (repeat 0%nat N)).
  { intros _. split; [destruct s2; reflexivity|]. split; auto. split; [apply repeat_length|].
    intros i Hi. exists []. rewrite app_nil_r. split; auto. split; auto. cbn. now rewrite nth_repeat. }
  specialize (HTh eq_refl).
  unfold conclude_t. rewrite Ep2.
  destruct (Nat.eqb_spec si p) as [->|Hne].
  { rewrite Epub. destruct (th 0%nat); [|left; auto]. right; right.
    exists s2, (repeat 0%nat N). split; auto. split; auto. right. intros j Hj Hjp.
    rewrite Hother by auto. change (ptime s2) with (ptime s1).
    destruct (Hheads j Hj) as (x & Hx & Hhs & Hst).
    destruct Hfrom as [(Epn & -> & Et)|(Eps & Et)].
    - exists x. split; auto. rewrite Et. destruct HX as [_ _ (e & Xe & Xt) (e' & Xe' & Xt') _].
      assert (e = e') by congruence. subst. lia.
    - unfold TInv in HP. rewrite Eps in HP. destruct HP as (_ & _ & [A|B]).
      + destruct A as (y & Hy & Hley). exists x. split; auto. rewrite Et.
        destruct HX as [_ _ _ (e & Xe & Xt) _]. destruct HH as [_ HH]. rewrite HH in Xe by auto.
        assert (e = y) by congruence. subst. lia.
      + unfold s1, dq. rewrite choose_dq. fold (dq s j). fold s1. rewrite Et. auto. }
  specialize (HT Hne).
  destruct (Z.leb_spec (ptime s2 - cstart s2) (scale c (et - cend s2))) as [Hle|Hlt].
  { rewrite Epub. destruct (th 0%nat); [|left; auto]. right; right.
    exists s2, (repeat 0%nat N). split; auto. split; auto. left. tauto. }
  destruct HT as [(HT & _)|HT]; [lia|].
  destruct (Nat.ltb_spec (num s2) N) as [Hlt'|Hge].
  2: { right. auto. }
  destruct HT as (x & Hx & Hxp).
  destruct (virtual_search_t_ok th s2 p x HW2 Hn Ep2 HpN HC2 (S (total (deques s2))) s2 (repeat 0%nat N) HTh ltac:(lia) Hx Hxp)
    as (cand' & Ec' & [(T1 & T2)|[(T1 & vs' & mvs' & T2 & T3 & T4)|T1]]);
    (assert (cand' = cand) as -> by congruence).
  - left. auto.
  - right; right. exists vs', mvs'. split; auto. split; auto. left. exists x. auto.
  - right; left. split; auto. split; auto. exists x. auto.
Qed.

Lemma iteration_t_cases th (s : state) :
  WF s -> TInv s -> (0 < N)%nat -> 0 <= scale c 0 -> num s = N ->
  exists hs ei et si st s' o b,
    heads s hs /\ extremes hs ei et si st /\
    iteration_t stamp c th s = Ok (s', o, b) /\ kind_t s hs ei et si st s' o b.
Proof.
  intros HW HP Hn H0 Hnum. pose proof HW as [W1 W2 W3 W4].
  assert (forall i, (i < length (deques s))%nat -> nth i (deques s) [] <> []) as HNE.
  { apply count_full. congruence. }
  destruct (fronts_some _ HNE) as (hs & Ef & HL & Hf).
  assert (heads s hs) as HH.
  { split; [congruence|]. intros i Hi. apply Hf. lia. }
  pose proof (boundary_extremes stamp hs ltac:(lia)) as HX. cbv zeta in HX.
  unfold iteration_t. rewrite Ef.
  destruct (boundary true (map stamp hs)) as (ei & et).
  destruct (boundary false (map stamp hs)) as (si & st).
  cbn [fst snd] in HX.
  assert (si < N)%nat as Hsi by (destruct HX; lia).
  assert (ei < N)%nat as Hei by (destruct HX; lia).
  set (s0 := clear_dropped ei s).
  assert (WF s0) as HW0 by (now apply clear_WF).
  assert (TInv s0) as HP0 by exact HP.
  assert (heads s0 hs) as HH0 by exact HH.
  pose proof (conclude_t_ok th hs ei et si st s0 HW0 HP0 Hn H0 HH0 HX) as (p & cand & Ep & Ec & HCon).
  assert (dq s0 si <> []) as Hdq by (apply HNE; lia).
  assert (forall s1, WF s1 -> deques s1 = deques s0 -> move_front si s1 = Ok (mv si s1)) as Hmv.
  { intros s1 HW1 Ed. apply (move_front_ok c); auto. unfold dq. rewrite Ed. exact Hdq. }
  assert (Hmk : forall s1 a b, deques s1 = deques s0 -> make_candidate a b s1 =
      Ok (mkState (deques s1) (num s1) (map (fun _ => []) (past s1)) (Some hs) a b
                  (pivot s1) (ptime s1) (dropped s1) (warned s1))).
  { intros s1 a b Ed. unfold make_candidate. rewrite Ed. cbn [s0 clear_dropped deques]. now rewrite Ef. }
  pose proof (choose_WF c hs st et ei s0 HW0) as HWc.
  assert (HEnd : exists s' o b, conclude_t stamp c th si et (mv si (choose hs st et ei s0)) = Ok (s', o, b) /\
             kind_t s hs ei et si st s' o b).
  { destruct HCon as [(T1 & T2)|[(T1 & T2 & T3)|(vs & mvs & T1 & T2 & T3)]].
    - do 3 eexists. split; [exact T2|]. now apply kt_publish.
    - do 3 eexists. split; [exact T1|]. now apply kt_search with (p := p).
    - do 3 eexists. split; [exact T1|]. now apply kt_throw with (p := p) (mvs := mvs). }
  assert (HEnd' : forall r, r = conclude_t stamp c th si et (mv si (choose hs st et ei s0)) ->
    exists hs0 ei0 et0 si0 st0 s' o b, heads s hs0 /\ extremes hs0 ei0 et0 si0 st0 /\ r = Ok (s', o, b) /\
      kind_t s hs0 ei0 et0 si0 st0 s' o b).
  { intros r ->. destruct HEnd as (s' & o & b & E1 & E2). exists hs, ei, et, si, st, s', o, b. auto. }
  destruct (pivot s0) as [p0|] eqn:Ep0.
  - apply HEnd'.
    unfold Approx_Proofs.choose in HWc |- *. rewrite Ep0 in HWc |- *. unfold better_heads in HWc |- *.
    destruct (Z.leb_spec (st - cstart s0) (scale c (et - cend s0))); cbn [negb] in *.
    + rewrite Hmv by auto. reflexivity.
    + rewrite Hmk by auto. cbn [bind]. rewrite Hmv; auto; [|now rewrite Ep0].
      cbn [bind]. now rewrite Ep0.
  - assert (pivot s = None) as Eps by exact Ep0.
    destruct (Z.ltb_spec (max_interval c) (et - st)) as [Hbig|Hsm].
    { rewrite (delete_front_ok c) by auto. cbn [bind].
      exists hs, ei, et, si, st. do 3 eexists. split; [exact HH|]. split; [exact HX|].
      split; [reflexivity|]. apply kt_delete; auto. }
    destruct (nth ei (dropped s0) false) eqn:Edd.
    { rewrite (delete_front_ok c) by auto. cbn [bind].
      exists hs, ei, et, si, st. do 3 eexists. split; [exact HH|]. split; [exact HX|].
      split; [reflexivity|]. apply kt_delete; auto. }
    apply HEnd'.
    rewrite Hmk by auto. cbn [bind]. unfold Approx_Proofs.choose in HWc |- *. rewrite Ep0 in HWc |- *.
    unfold set_pivot. cbn [deques num past candidate cstart cend dropped warned].
    rewrite Hmv; auto.
Qed.

(** what an iteration leaves behind *)
Lemma kind_inv (s : state) hs ei et si st (s' : state) o b :
  WF s -> TInv s -> (0 < N)%nat -> heads s hs -> extremes hs ei et si st ->
  kind_t s hs ei et si st s' o b -> WF s' /\ TInv s'.
Proof.
  intros HW HP Hn HH HX HK. pose proof HW as [W1 W2 W3 W4].
  assert (si < N)%nat as Hsi by (destruct HX, HH; lia).
  assert (forall e, WF (clear_dropped e s)) as HWc by (intros; now apply clear_WF).
  destruct (choose_cand hs ei et si st (clear_dropped ei s) (HWc _) HP HH HX) as (p' & Ep & HpN & HC & _).
  assert (WF (choose hs st et ei (clear_dropped ei s))) as HW1 by (now apply choose_WF).
  pose proof (has_candidate_mv c si _ HW1 Hsi HC) as HC2.
  pose proof (mv_WF c si _ HW1) as HW2.
  destruct HK as [Hpv | cand s2 Hc | p s2 Hp Hne Hh | cand p vs mvs s2 Hc Hp HV HT].
  - split; [apply del_WF; auto|]. unfold TInv in *. cbn. rewrite Hpv in *. exact HP.
  - split; [now apply pub_WF|]. unfold TInv. intros i. apply pub_pa.
  - split; auto. unfold TInv. rewrite Hp. assert (p' = p) as -> by (cbn in Hp; congruence). auto.
  - pose proof (vrel_fields c _ _ _ HV) as (F1 & F2 & F3 & F4 & F5 & F6 & F7).
    split; [now destruct HV as (_ & HWv & _)|]. unfold TInv. rewrite F4, Hp, F5.
    assert (p' = p) as -> by (cbn in Hp; congruence). split; auto. split; auto.
    eapply has_candidate_vrel; eauto.
Qed.

Lemma kind_pend (s : state) hs ei et si st (s' : state) o b i :
  WF s -> TInv s -> (0 < N)%nat -> heads s hs -> extremes hs ei et si st ->
  kind_t s hs ei et si st s' o b -> (i < N)%nat ->
  (exists d, pend s i = d ++ column i (if b then removelast o else o) ++ pend s' i) /\
  Forall (fun X => length X = N) o /\
  (forall X e, In X o -> nth_error X i = Some e -> In e (pend s i)).
Proof.
  intros HW HP Hn HH HX HK Hi. pose proof HW as [W1 W2 W3 W4].
  assert (si < N)%nat as Hsi by (destruct HX, HH; lia).
  set (s0 := clear_dropped ei s) in *.
  assert (WF s0) as HW0 by (now apply clear_WF).
  set (s1 := choose hs st et ei s0) in *.
  assert (WF s1) as HW1 by (now apply choose_WF).
  destruct (choose_cand hs ei et si st s0 HW0 HP HH HX) as (p' & Ep & HpN & HC & _).
  pose proof (has_candidate_mv c si _ HW1 Hsi HC) as HC2.
  destruct (choose_pend c hs st et ei s0 i HW0) as (d & Hd). fold s1 in Hd.
  change (pend s0 i) with (pend s i) in Hd.
  assert (pend (mv si s1) i = pend s1 i) as Hm by (apply (mv_pend c); auto).
  assert (forall cand, candidate (mv si s1) = Some cand -> length cand = N /\ nth_error cand i = hd_error (pend (mv si s1) i)) as Hcand.
  { intros cand Hc. destruct HC2 as (cand' & Ec & HL & Hh). assert (cand' = cand) as -> by congruence. split; auto. apply Hh; auto. }
  assert (Hincl : forall e, In e (pend (mv si s1) i) -> In e (pend s i)).
  { intros e He. rewrite Hd, <- Hm. apply in_or_app; auto. }
  assert (Hhd : forall cand e, candidate (mv si s1) = Some cand -> nth_error cand i = Some e -> In e (pend s i)).
  { intros cand e Hc He. apply Hincl. destruct (Hcand cand Hc) as (_ & Hh). rewrite Hh in He.
    destruct (pend (mv si s1) i); cbn in He; [discriminate|]. injection He as ->. cbn; auto. }
  destruct HK as [Hpv | cand s2 Hc | p s2 Hp Hne Hh | cand p vs mvs s2 Hc Hp HV HT].
  - split; [|split; [constructor|intros X e []]]. unfold TInv in HP. rewrite Hpv in HP.
    exists (if Nat.eq_dec si i then firstn 1 (dq s i) else []). cbn [column flat_map app].
    unfold Approx_Proofs.pend. change (pa (del si (clear_dropped ei s)) i) with (pa s i).
    rewrite (del_dq c) by auto. rewrite HP. cbn [app].
    change (dq (clear_dropped ei s) i) with (dq s i). destruct (Nat.eq_dec si i); cbn [app]; auto.
    symmetry; apply firstn1_tl.
  - fold s0 s1 in s2. assert (WF s2) as HW2 by (now apply mv_WF).
    destruct (Hcand cand Hc) as (HL & Hh).
    split; [|split; [constructor; auto|]].
    + exists d. rewrite Hd, <- Hm. f_equal. fold s2. unfold Approx_Proofs.pend at 2.
      rewrite pub_pa, (pub_dq c) by auto. fold (pend s2 i). cbn [column flat_map app].
      fold s2 in Hh. rewrite Hh.
      assert (nth_error cand i <> None) as Hne by (apply nth_error_Some; lia).
      rewrite Hh in Hne.
      destruct (pend s2 i) as [|x t]; [cbn in Hne; congruence|]. reflexivity.
    + intros X e [<-|[]]; eauto.
  - split; [|split; [constructor|intros X e []]]. exists d. cbn [column flat_map app]. rewrite Hd, <- Hm. reflexivity.
  - destruct (Hcand cand Hc) as (HL & Hh).
    split; [|split; [constructor; auto|]].
    + exists d. cbn [removelast column flat_map app]. rewrite Hd, <- Hm. f_equal. symmetry.
      apply (vrel_pend c _ _ _ i HV Hi).
    + intros X e [<-|[]]; eauto.
Qed.

Lemma kind_measure (s : state) hs ei et si st (s' : state) o t0 :
  WF s -> TInv s -> (0 < N)%nat -> num s = N -> heads s hs -> extremes hs ei et si st ->
  kind_t s hs ei et si st s' o false -> (total (pending s) <= t0)%nat ->
  (total (pending s') <= total (pending s))%nat /\ (msr s' t0 < msr s t0)%nat.
Proof.
  intros HW HP Hn Hnum HH HX HS Ht. pose proof HW as [W1 W2 W3 W4].
  assert (si < N)%nat as Hsi by (destruct HX, HH; lia).
  assert (forall i, (i < length (deques s))%nat -> nth i (deques s) [] <> []) as HNE.
  { apply count_full. congruence. }
  assert (dq s si <> []) as Hsne by (apply HNE; lia).
  assert (forall s1 : state, WF s1 -> (total (pending s1) < total (pending s))%nat ->
     (total (pending s1) <= total (pending s))%nat /\ (msr s1 t0 < msr s t0)%nat) as Hdrop.
  { intros s1 HW1 Hlt. split; [lia|]. unfold msr. pose proof (pending_total c s1 HW1). nia. }
  set (s0 := clear_dropped ei s) in *.
  assert (WF s0) as HW0 by (now apply clear_WF).
  set (s1 := choose hs st et ei s0) in *.
  assert (WF s1) as HW1 by (now apply choose_WF).
  assert (total (pending s1) <= total (pending s))%nat as HT1
    by (change (pending s) with (pending s0); apply choose_total; auto).
  assert (dq s1 si <> []) as Hs1 by (unfold s1, dq; rewrite choose_dq; exact Hsne).
  destruct (total_mv c si s1 HW1 Hsi Hs1) as (M1 & M2).
  inversion HS as [Hpv | cand s2 Hc | p s2 Hp Hne Hh |]; subst; clear HS.
  - apply Hdrop; [now apply del_WF|].
    pose proof (del_WF c si s0 HW0) as HWd. rewrite !(pending_total c) by auto.
    unfold del. cbn. pose proof (total_upd (deques s) si (tl (dq s si)) ltac:(lia)) as H1.
    unfold dq in *. cbn. destruct (nth si (deques s) []); [congruence|]. cbn in *. lia.
  - apply Hdrop; [apply pub_WF, mv_WF; auto|]. fold s0 s1 in s2.
    change (pending (pub s2)) with (map2 (@app E) (map (fun _ => []) (past s2)) (map (@tl E) (pending s2))).
    assert (WF s2) as HW2 by (now apply mv_WF).
    rewrite total_map2 by (rewrite !map_length, (pending_length c); auto; destruct HW2; auto).
    rewrite total_nil. cbn [Nat.add].
    fold s2 in M1.
    assert (total (map (@tl E) (pending s2)) < total (pending s2))%nat; [|lia].
    apply total_tails; [rewrite (pending_length c); auto|].
    rewrite (pending_length c) by auto. intros i Hi. rewrite (nth_pending c) by auto.
    unfold s2. rewrite (mv_pend c) by auto. intros HE. apply app_eq_nil in HE. destruct HE as (_ & HE).
    unfold s1, dq in HE. rewrite choose_dq in HE. apply (HNE i); [lia|exact HE].
  - fold s0 s1 in s2. fold s2 in M1, M2. split; [fold s1; fold s2; lia|]. unfold msr. fold s1. fold s2.
    unfold s1 in M2. rewrite choose_dq in M2. cbn [s0 clear_dropped deques] in M2. nia.
Qed.

(** ** what holds of every call of process, and of add *)
Record delivered (s : state) (o : list (list E)) (b : bool) (s' : state) : Prop := {
  de_wf : WF s';
  de_inv : TInv s';
  de_len : Forall (fun X => length X = N) o;
  de_pend : forall i, (i < N)%nat -> exists d,
    pend s i = d ++ pend s' i /\ subseq (column i (if b then removelast o else o)) d;
  de_in : forall i X e, (i < N)%nat -> In X o -> nth_error X i = Some e -> In e (pend s i);
  de_some : b = true -> o <> [];
  de_kept : b = true -> forall i, (i < N)%nat -> nth_error (last o []) i = hd_error (pend s' i)
}.

Lemma removelast_app_ne {A} (a b : list A) : b <> [] -> removelast (a ++ b) = a ++ removelast b.
Proof. intros H. now apply removelast_app. Qed.

Lemma kind_delivered (s : state) hs ei et si st (s' : state) o b :
  WF s -> TInv s -> (0 < N)%nat -> heads s hs -> extremes hs ei et si st ->
  kind_t s hs ei et si st s' o b -> delivered s o b s'.
Proof.
  intros HW HP Hn HH HX HK. destruct (kind_inv _ _ _ _ _ _ _ _ _ HW HP Hn HH HX HK) as (A & B).
  split; auto.
  - now apply (kind_pend _ _ _ _ _ _ _ _ _ 0%nat HW HP Hn HH HX HK).
  - intros i Hi. destruct (kind_pend _ _ _ _ _ _ _ _ _ i HW HP Hn HH HX HK Hi) as ((d & Hd) & _).
    exists (d ++ column i (if b then removelast o else o)). split; [now rewrite Hd, app_assoc|].
    apply subseq_app_skip, subseq_refl.
  - intros i X e Hi. destruct (kind_pend _ _ _ _ _ _ _ _ _ i HW HP Hn HH HX HK Hi) as (_ & _ & H). apply H.
  - intros ->. inversion HK; discriminate.
  - intros -> i Hi. inversion HK as [| | |cand p vs mvs s2 Hc Hp HV HT]; subst. cbn [last].
    assert (si < N)%nat as Hsi by (destruct HX, HH; lia).
    set (s0 := clear_dropped ei s) in *.
    assert (WF s0) as HW0 by (now apply clear_WF).
    assert (WF (choose hs st et ei s0)) as HW1 by (now apply choose_WF).
    destruct (choose_cand hs ei et si st s0 HW0 HP HH HX) as (p' & Ep & HpN & HC & _).
    destruct (has_candidate_mv c si _ HW1 Hsi HC) as (cand' & Ec & HL & Hh).
    fold s2 in Ec, Hh. assert (cand' = cand) as -> by congruence.
    rewrite Hh by auto. f_equal. symmetry. apply (vrel_pend c _ _ _ i HV Hi).
Qed.

Lemma delivered_trans (s : state) o1 (s1 : state) o2 b (s2 : state) :
  delivered s o1 false s1 -> delivered s1 o2 b s2 -> delivered s (o1 ++ o2) b s2.
Proof.
  intros [A1 A2 A3 A4 A5 A6 A7] [B1 B2 B3 B4 B5 B6 B7]. split; auto.
  - apply Forall_app; auto.
  - intros i Hi. destruct (A4 i Hi) as (d1 & E1 & S1). destruct (B4 i Hi) as (d2 & E2 & S2).
    exists (d1 ++ d2). split; [now rewrite E1, E2, app_assoc|].
    replace (column i (if b then removelast (o1 ++ o2) else o1 ++ o2))
      with (column i o1 ++ column i (if b then removelast o2 else o2)).
    + now apply subseq_app.
    + destruct b; [rewrite removelast_app_ne by auto|]; now rewrite column_app.
  - intros i X e Hi HX He. apply in_app_or in HX as [HX|HX]; [eauto|].
    destruct (A4 i Hi) as (d1 & E1 & S1). rewrite E1. apply in_or_app. right. eauto.
  - intros Hb HE. apply app_eq_nil in HE. now apply B6.
  - intros Hb i Hi. rewrite <- (B7 Hb i Hi). f_equal. specialize (B6 Hb). clear -B6.
    induction o1 as [|x o1 IH]; auto. cbn [app]. rewrite <- IH. destruct (o1 ++ o2) eqn:He; auto.
    apply app_eq_nil in He. destruct He. congruence.
Qed.

Lemma delivered_refl (s : state) : WF s -> TInv s -> delivered s [] false s.
Proof.
  intros HW HP. split; auto; try discriminate.
  - intros i Hi. exists []. split; auto. constructor.
  - intros i X e Hi [].
Qed.

Lemma process_t_ok t0 : (0 < N)%nat -> 0 <= scale c 0 -> forall fuel th (s : state),
  WF s -> TInv s -> (total (pending s) <= t0)%nat -> (msr s t0 < fuel)%nat ->
  exists s' o b, approx_process_t stamp c fuel th s = Ok (s', o, b) /\ delivered s o b s'.
Proof.
  intros Hn H0. induction fuel as [|fuel IH]; intros th s HW HP Ht Hm; [lia|].
  cbn [approx_process_t].
  destruct (Nat.eqb_spec (num s) N) as [Hnum|Hnum].
  - destruct (iteration_t_cases th s HW HP Hn H0 Hnum) as (hs & ei & et & si & st & s1 & o1 & b1 & HH & HX & -> & HK).
    pose proof (kind_delivered _ _ _ _ _ _ _ _ _ HW HP Hn HH HX HK) as HD.
    cbn [bind]. destruct b1.
    + exists s1, o1, true. auto.
    + destruct (kind_measure _ _ _ _ _ _ _ _ t0 HW HP Hn Hnum HH HX HK Ht) as (HT1 & HM1).
      destruct (IH (later (length o1) th) s1 (de_wf _ _ _ _ HD) (de_inv _ _ _ _ HD) ltac:(lia) ltac:(lia)) as (s' & o & b & E1 & HD2).
      rewrite E1. cbn [bind]. exists s', (o1 ++ o), b. split; auto. eapply delivered_trans; eauto.
  - exists s, [], false. split; auto. now apply delivered_refl.
Qed.

Lemma process_t_total th (s : state) : (0 < N)%nat -> 0 <= scale c 0 -> WF s -> TInv s ->
  exists s' o b, approx_process_t stamp c (fuel_for s) th s = Ok (s', o, b) /\ delivered s o b s'.
Proof.
  intros Hn H0 HW HP. apply (process_t_ok (total (pending s))); auto.
  unfold fuel_for, msr. pose proof (pending_total c s HW). nia.
Qed.

Lemma push_TInv i (e : E) (s : state) : WF s -> (i < N)%nat -> TInv s -> TInv (push i e s).
Proof.
  intros HW Hi HP. unfold TInv in *. cbn [push set_queues pivot ptime].
  destruct (pivot s) as [p|]; auto.
  destruct HP as (P1 & (cand & C1 & C2 & C3) & P3).
  assert (HF : forall j, head_from (ptime s) (dq s j) -> head_from (ptime s) (dq (push i e s) j)).
  { intros j (x & Hx & Hs). exists x. split; auto. rewrite (push_dq c) by auto.
    destruct (Nat.eq_dec i j); auto. now apply hd_error_app. }
  split; auto. split.
  - exists cand. split; auto. split; auto. intros j Hj. fold (pend (push i e s) j).
    rewrite (push_pend c) by auto. rewrite C3 by auto. fold (pend s j).
    assert (nth_error cand j <> None) as Hne by (apply nth_error_Some; lia).
    rewrite C3 in Hne by auto. fold (pend s j) in Hne.
    destruct (Nat.eq_dec i j); auto. destruct (pend s j); cbn in *; congruence.
  - destruct P3 as [A|B]; [left; auto|right; auto].
Qed.

Lemma add_process_t_ok th i (e : E) (s : state) :
  (0 < N)%nat -> 0 <= scale c 0 -> WF s -> TInv s -> (i < N)%nat ->
  exists s1 o1 b1, approx_add_process_t stamp c th s i e = Ok (s1, o1, b1) /\ delivered (push i e s) o1 b1 s1.
Proof.
  intros Hn H0 HW HP Hi. pose proof HW as [W1 W2 W3 W4].
  pose proof (push_WF c i e s HW) as HW1. pose proof (push_TInv i e s HW Hi HP) as HP1.
  pose proof (count_upd (deques s) i (dq s i ++ [e]) ltac:(lia)) as HC.
  unfold approx_add_process_t. rewrite (nth_error_nth' _ []) by lia. fold (dq s i).
  assert (set_queues (upd i (dq s i ++ [e]) (deques s))
             (if is_nil (dq s i) then S (num s) else num s) (past s) s = push i e s) as ->.
  { unfold push. f_equal. fold (dq s i) in HC. unfold nz in HC.
    destruct (dq s i); cbn [is_nil app] in *; lia. }
  destruct (is_nil (dq s i)) eqn:En.
  - destruct (Nat.eqb_spec (num (push i e s)) N) as [Hf|Hf].
    + apply process_t_total; auto.
    + exists (push i e s), [], false. split; auto. now apply delivered_refl.
  - exists (check_inter_message_bound stamp c i (push i e s)), [], false. split; auto.
    assert (exists w, check_inter_message_bound stamp c i (push i e s) = set_warned w (push i e s)) as (w & ->).
    { unfold check_inter_message_bound. destruct (nth i (warned _) false).
      - exists (warned (push i e s)). destruct (push i e s); reflexivity.
      - destruct (bound_violated _ _ _ _ _).
        + eexists. unfold set_warned. reflexivity.
        + exists (warned (push i e s)). destruct (push i e s); reflexivity. }
    destruct (delivered_refl _ HW1 HP1) as [D1 D2 D3 D4 D5 D6 D7].
    split; auto. destruct HW1; split; auto.
Qed.

Lemma add_overflow_t_ok th i (s : state) :
  (0 < N)%nat -> 0 <= scale c 0 -> (0 < queue_size c)%nat -> WF s -> TInv s -> (i < N)%nat ->
  exists s1 o1 b1, approx_add_overflow_t stamp c th s i = Ok (s1, o1, b1) /\ delivered s o1 b1 s1.
Proof.
  intros Hn H0 Hq HW HP Hi. pose proof HW as [W1 W2 W3 W4].
  unfold approx_add_overflow_t. fold (dq s i) (pa s i).
  assert (length (pend s i) = length (dq s i) + length (pa s i))%nat as HL
    by (unfold Approx_Proofs.pend; rewrite app_length; lia).
  destruct (Nat.ltb_spec (queue_size c) (length (dq s i) + length (pa s i))) as [Hov|Hok].
  2: { exists s, [], false. split; auto. now apply delivered_refl. }
  cbn [recover_all set_queues deques num past candidate cstart cend pivot ptime dropped warned].
  fold (pending s). rewrite (nth_pending c) by auto. fold (pend s i).
  destruct (pend s i) as [|x q] eqn:Epend; [cbn in HL; lia|].
  assert (count_nonempty (pending s) = count_nonempty (upd i q (pending s))) as EC.
  { pose proof (count_upd (pending s) i q ltac:(rewrite (pending_length c); auto)) as HC.
    rewrite (nth_pending c) in HC by auto. fold (pend s i) in HC. rewrite Epend in HC.
    unfold nz in HC. destruct q; [cbn in *; lia|]. cbn [is_nil] in HC. lia. }
  pose proof (drop_WF c i s HW) as HWd.
  assert (TInv (drop i s)) as HPd.
  { unfold TInv. intros j. now apply (drop_pend c). }
  assert (HDd : delivered s [] false (drop i s)).
  { split; auto; try discriminate.
    - intros j Hj. destruct (drop_pend c i s j HW Hi) as (D1 & D2).
      unfold Approx_Proofs.pend at 2. rewrite D1, D2. cbn [app]. destruct (Nat.eq_dec i j) as [<-|Hne].
      + exists (firstn 1 (pend s i)). split; [symmetry; apply firstn1_tl|constructor].
      + exists []. split; auto. constructor.
    - intros j X e Hj []. }
  cbv zeta. rewrite EC.
  destruct (pivot s) as [p|] eqn:Ep.
  - cbn [deques num past candidate cstart cend pivot ptime dropped warned].
    assert (mkState (upd i q (pending s)) (count_nonempty (upd i q (pending s)))
              (map (fun _ => []) (past s)) None (cstart s) (cend s) None (ptime s)
              (upd i true (dropped s)) (warned s) = drop i s) as ->.
    { unfold drop. rewrite Epend, Ep. reflexivity. }
    destruct (process_t_total th (drop i s) Hn H0 HWd HPd) as (s' & o & b & -> & HD).
    exists s', o, b. split; auto. apply (delivered_trans _ [] _ _ _ _ HDd HD).
  - assert (mkState (upd i q (pending s)) (count_nonempty (upd i q (pending s)))
              (map (fun _ => []) (past s)) (candidate s) (cstart s) (cend s) None (ptime s)
              (upd i true (dropped s)) (warned s) = drop i s) as ->.
    { unfold drop. rewrite Epend, Ep. reflexivity. }
    exists (drop i s), [], false. split; auto.
Qed.

Lemma add_t_ok th i (e : E) (s : state) :
  (0 < N)%nat -> 0 <= scale c 0 -> (0 < queue_size c)%nat -> WF s -> TInv s -> (i < N)%nat ->
  exists s1 o1 b1, approx_add_t stamp c th s (i, e) = Ok (s1, o1, b1) /\ delivered (push i e s) o1 b1 s1.
Proof.
  intros Hn H0 Hq HW HP Hi. unfold approx_add_t. cbn [fst snd].
  destruct (add_process_t_ok th i e s Hn H0 HW HP Hi) as (s1 & o1 & b1 & -> & D1). cbn [bind].
  destruct b1; [eauto 6|].
  destruct (add_overflow_t_ok (later (length o1) th) i s1 Hn H0 Hq (de_wf _ _ _ _ D1) (de_inv _ _ _ _ D1) Hi)
    as (s2 & o2 & b2 & -> & D2). cbn [bind].
  exists s2, (o1 ++ o2), b2. split; auto. eapply delivered_trans; eauto.
Qed.

Lemma init_WF : WF (init (E := E) c).
Proof. split; cbn; rewrite ?repeat_length; auto. clear. induction N as [|k IHk]; cbn; auto. Qed.
Lemma init_TInv : TInv (init (E := E) c).
Proof. intros i. unfold pa. cbn. apply nth_repeat_nil. Qed.
End P.
