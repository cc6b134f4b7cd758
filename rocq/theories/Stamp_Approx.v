(** Messages without a valid time in ApproximateTime. *)
From Coq Require Import List Arith ZArith Lia Bool.
From Verif Require Import Base RclTime Trace Approx_Model Approx_Spec Approx_Proofs Stamp_Model Stamp_Spec Stamp_Proofs.
Import ListNotations.
Local Open Scope Z_scope.

Section P.
Context {E : Type} (stamp : E -> option Z) (c : cfg) (f : E -> Z).
Hypothesis Hf : agrees stamp f.
Hypothesis Hn : (0 < n c)%nat.
Hypothesis Hq : (0 < queue_size c)%nat.
Notation state := (state E).
Notation N := (n c).
Notation WF := (WF c).
Notation PInv := (PInv f c).
Notation has_candidate := (has_candidate c).
Notation vrel := (vrel c).
Notation heads := (heads c).
Notation pend := (pend (E := E)).

(** Without an exception the computation is that of the model without exceptions. *)
Definition same {S O} (x : res (S * list O * bool)) (y : res (S * list O)) : Prop :=
  match x with
  | Ok (s, o, false) => y = Ok (s, o)
  | Ok (_, _, true) => exists e, invalid stamp e
  | Err a => y = Err a
  end.

Lemma same_seq {S O} (x : res (S * list O * bool)) y k k' :
  same x y -> (forall s, same (k s) (k' s)) ->
  same (do '(s1, o1, b1) <- x; if (b1 : bool) then Ok (s1, o1, true) else do '(s2, o2, b2) <- k s1; Ok (s2, o1 ++ o2, b2))
       (do '(s1, o1) <- y; do '(s2, o2) <- k' s1; Ok (s2, o1 ++ o2)).
Proof.
  intros H K. destruct x as [[[s1 o1] [|]]|a]; cbn in *; auto.
  - subst y. cbn. specialize (K s1). destruct (k s1) as [[[s2 o2] [|]]|a]; cbn in *; auto; rewrite K; reflexivity.
  - now subst y.
Qed.

Lemma same_bind {A S O} (m : res A) (k : A -> res (S * list O * bool)) k' :
  (forall a, same (k a) (k' a)) -> same (do a <- m; k a) (do a <- m; k' a).
Proof. intros H. destruct m; cbn; auto. Qed.

Lemma stamps_of_ok (l : list E) :
  match stamps_of stamp l with
  | Some ts => ts = map f l /\ Forall (valid stamp) l
  | None => exists e, In e l /\ invalid stamp e
  end.
Proof.
  induction l as [|e l IH]; cbn [stamps_of map]; auto.
  destruct (stamp e) as [t|] eqn:Es.
  - destruct (stamps_of stamp l) as [ts|].
    + destruct IH as (-> & IH). split; [now rewrite (Hf e t Es)|]. constructor; auto. unfold valid. congruence.
    + destruct IH as (x & Hx & Hi). exists x. cbn; auto.
  - exists e. cbn; auto.
Qed.

Lemma bound_violated_x_ok i v q :
  match bound_violated_x stamp c i v q with
  | Some b => bound_violated f c i v q = b
  | None => exists e, invalid stamp e
  end.
Proof.
  unfold bound_violated_x, bound_violated. destruct (rev q) as [|m prevs]; auto.
  destruct (stamp m) as [tm|] eqn:Em; [|exists m; auto]. pose proof (Hf m tm Em) as <-.
  destruct prevs as [|p prevs].
  - destruct (rev v) as [|p rv]; auto. destruct (stamp p) as [tp|] eqn:Ep; [|exists p; auto].
    now rewrite (Hf p tp Ep).
  - destruct (stamp p) as [tp|] eqn:Ep; [|exists p; auto]. now rewrite (Hf p tp Ep).
Qed.

Lemma check_bound_x_ok i (s : state) :
  let '(s', b) := check_bound_x stamp c i s in
  if (b : bool) then s' = s /\ (exists e, invalid stamp e) else s' = check_inter_message_bound f c i s.
Proof.
  unfold check_bound_x, check_inter_message_bound. destruct (nth i (warned s) false); auto.
  pose proof (bound_violated_x_ok i (nth i (past s) []) (nth i (deques s) [])) as H.
  destruct (bound_violated_x stamp c i _ _) as [[|]|]; auto; now rewrite H.
Qed.

Lemma virtual_times_x_ok (s : state) : forall vs qs i,
  match virtual_times_x stamp c s i vs qs with
  | Ok (Some ts) => virtual_times_from f c s i vs qs = Ok ts
  | Ok None => exists e, invalid stamp e
  | Err a => virtual_times_from f c s i vs qs = Err a
  end.
Proof.
  assert (forall i v q, match virtual_time_x stamp c s i v q with
    | Ok (Some t) => virtual_time f c s i v q = Ok t
    | Ok None => exists e, invalid stamp e
    | Err a => virtual_time f c s i v q = Err a end) as HV.
  { intros i v q. unfold virtual_time_x, virtual_time. destruct (pivot s); auto. destruct q as [|x q].
    - destruct (rev v) as [|l rv]; auto. destruct (stamp l) as [t|] eqn:El; [|exists l; auto]. rewrite (Hf l t El).
      destruct (ptime s <? t + bound c i); reflexivity.
    - destruct (stamp x) as [t|] eqn:Ex; [|exists x; auto]. now rewrite (Hf x t Ex). }
  induction vs as [|v vs IH]; intros [|q qs] i; cbn [virtual_times_x virtual_times_from]; auto.
  specialize (HV i v q). destruct (virtual_time_x stamp c s i v q) as [[t|]|a]; cbn [bind]; auto.
  - rewrite HV. cbn [bind]. specialize (IH qs (S i)). destruct (virtual_times_x stamp c s (S i) vs qs) as [[ts|]|a]; cbn [bind]; auto;
      rewrite IH; reflexivity.
  - now rewrite HV.
Qed.

Lemma publish_x_ok (s : state) : same (publish_x s) (publish s).
Proof. unfold publish_x. destruct (publish s) as [[s' o]|]; reflexivity. Qed.

Lemma virtual_search_x_same fuel : forall before mv (s : state),
  same (virtual_search_x stamp c fuel before mv s) (virtual_search f c fuel before mv s).
Proof.
  induction fuel as [|fuel IH]; intros before mv s; cbn [virtual_search_x virtual_search]; [reflexivity|].
  unfold virtual_times. pose proof (virtual_times_x_ok s (past s) (deques s) 0) as HV.
  destruct (virtual_times_x stamp c s 0 (past s) (deques s)) as [[ts|]|a]; cbn [bind]; [|exact HV|now rewrite HV].
  rewrite HV. cbn [bind]. destruct (boundary true ts) as [ei et], (boundary false ts) as [si st].
  destruct (_ <=? _); [apply publish_x_ok|]. destruct (_ <? _).
  { apply same_bind. intros s'. destruct (Nat.eqb _ _); reflexivity. }
  destruct (match pivot s with Some p => _ | None => _ end); [reflexivity|]. destruct (negb _); [reflexivity|].
  apply same_bind. auto.
Qed.

Lemma conclude_x_same si et (s : state) : same (conclude_x stamp c si et s) (conclude f c si et s).
Proof.
  unfold conclude_x, conclude. destruct (pivot s) as [p|]; [|reflexivity].
  destruct (Nat.eqb si p); [apply publish_x_ok|]. destruct (_ <=? _); [apply publish_x_ok|].
  destruct (Nat.ltb _ _); [apply virtual_search_x_same|reflexivity].
Qed.

Lemma iteration_x_same (s : state) : same (iteration_x stamp c s) (iteration f c s).
Proof.
  unfold iteration_x, iteration. destruct (fronts (deques s)) as [hs|]; [|reflexivity].
  pose proof (stamps_of_ok hs) as HS. destruct (stamps_of stamp hs) as [ts|].
  2:{ destruct HS as (e & _ & He). exists e. exact He. }
  destruct HS as (-> & _). destruct (boundary true (map f hs)) as [ei et], (boundary false (map f hs)) as [si st].
  destruct (pivot _).
  - destruct (_ <=? _); [apply same_bind; intros; apply conclude_x_same|].
    apply same_bind; intros. apply same_bind; intros. apply conclude_x_same.
  - destruct (_ <? _); [apply same_bind; intros; reflexivity|].
    destruct (nth _ _ _); [apply same_bind; intros; reflexivity|].
    apply same_bind; intros. apply same_bind; intros. apply conclude_x_same.
Qed.

Lemma process_x_same fuel : forall s : state, same (approx_process_x stamp c fuel s) (process f c fuel s).
Proof.
  induction fuel as [|fuel IH]; intros s; cbn [approx_process_x process]; destruct (Nat.eqb _ _); try reflexivity.
  apply same_seq; auto. apply iteration_x_same.
Qed.

Lemma add_process_x_same (s : state) i e : same (approx_add_process_x stamp c s i e) (add_process f c s i e).
Proof.
  unfold approx_add_process_x, add_process. destruct (nth_error (deques s) i) as [q|]; [|reflexivity]. cbv zeta.
  destruct (is_nil q).
  - destruct (Nat.eqb _ _); [apply process_x_same|reflexivity].
  - match goal with |- context [check_bound_x stamp c i ?S] => pose proof (check_bound_x_ok i S) as H; destruct (check_bound_x stamp c i S) as [s2 [|]] end.
    + apply H.
    + now subst.
Qed.

Lemma add_overflow_x_same (s : state) i : same (approx_add_overflow_x stamp c s i) (add_overflow f c s i).
Proof.
  unfold approx_add_overflow_x, add_overflow. destruct (Nat.ltb _ _); [|reflexivity]. cbv zeta.
  destruct (nth i (deques (recover_all s)) []) as [|x q]; [reflexivity|].
  destruct (pivot _); [apply process_x_same|reflexivity].
Qed.

Lemma add_x_same (s : state) ie : same (approx_add_x stamp c s ie) (add f c s ie).
Proof. unfold approx_add_x, add. apply same_seq; [apply add_process_x_same|]. intros. apply add_overflow_x_same. Qed.

(** * The state left by an exception *)
Lemma virtual_search_x_throw (s : state) p x : (p < N)%nat -> pivot s = Some p ->
  forall fuel before mvs vs vs' o,
  vrel s vs mvs -> hd_error (dq vs p) = Some x -> pa vs p = [] ->
  virtual_search_x stamp c fuel before mvs vs = Ok (vs', o, true) ->
  o = [] /\ exists mvs', vrel s vs' mvs' /\ hd_error (dq vs' p) = Some x /\ pa vs' p = [].
Proof.
  intros Hp Hpv. induction fuel as [|fuel IH]; intros before mvs vs vs' o HV Hx Hpa; cbn [virtual_search_x]; [discriminate|].
  pose proof (vrel_fields _ _ _ _ HV) as (F1 & F2 & F3 & F4 & F5 & F6 & F7).
  pose proof HV as (_ & HWv & HLm & HR). pose proof HWv as [L1 L2 L3 L4].
  destruct (virtual_times_x stamp c vs 0 (past vs) (deques vs)) as [[ts|]|a]; cbn [bind]; [| |discriminate].
  2:{ intros [= <- <-]. split; auto. exists mvs. auto. }
  destruct (boundary true ts) as [ei et], (boundary false ts) as [si st].
  destruct (_ <=? _). { unfold publish_x. destruct (publish vs) as [[? ?]|]; discriminate. }
  destruct (_ <? _). { destruct (recover_some mvs vs) as [s1|]; cbn [bind]; [|discriminate]. destruct (Nat.eqb _ _); discriminate. }
  rewrite F4, Hpv. destruct (Nat.eqb_spec si p) as [|Hsp]; [discriminate|]. destruct (negb _); [discriminate|].
  destruct (move_front si vs) as [s1|] eqn:Em; cbn [bind]; [|discriminate].
  assert (si < N /\ dq vs si <> [])%nat as (Hsi & Hne).
  { unfold move_front in Em. destruct (nth_error (deques vs) si) as [[|y q']|] eqn:En; try discriminate.
    split; [rewrite <- L1; apply nth_error_Some; congruence|]. unfold dq. rewrite (nth_error_nth _ _ _ En). discriminate. }
  rewrite (move_front_ok c) in Em by auto. injection Em as <-. apply IH.
  - split; [|split; [|split]].
    + unfold mv, set_queues. cbn. now rewrite F1, F2, F3, F4, F5, F6, F7.
    + now apply mv_WF.
    + rewrite upd_length. auto.
    + intros i Hi. destruct (HR i Hi) as (m & E1 & E2 & E3).
      rewrite (mv_pa c), (mv_dq c) by (auto; lia). destruct (Nat.eq_dec si i) as [->|Hneq].
      * exists (m ++ firstn 1 (dq vs i)). split; [now rewrite E1, app_assoc|].
        split; [rewrite <- app_assoc, firstn1_tl; auto|].
        rewrite nth_upd_eq by lia. rewrite app_length. destruct (dq vs i); [congruence|]. cbn. lia.
      * exists m. split; auto. split; auto. rewrite nth_upd_neq by congruence. auto.
  - rewrite (mv_dq c) by auto. destruct (Nat.eq_dec si p); [congruence|]. exact Hx.
  - rewrite (mv_pa c) by auto. destruct (Nat.eq_dec si p); [congruence|]. exact Hpa.
Qed.

Definition cv (s : state) : Prop := forall X, candidate s = Some X -> Forall (valid stamp) X.

Lemma conclude_x_throw si et (s : state) s' o :
  WF s -> PInv s -> cv s -> conclude_x stamp c si et s = Ok (s', o, true) ->
  o = [] /\ WF s' /\ PInv s' /\ cv s' /\ forall i, (i < N)%nat -> pend s' i = pend s i.
Proof.
  intros HW HP HC. unfold conclude_x. unfold Approx_Proofs.PInv in HP. destruct (pivot s) as [p|] eqn:Ep; [|discriminate].
  destruct HP as (Hp & Hcand & Hpa & x & Hx & Hpt).
  assert (forall r, publish_x s = Ok (s', r, true) -> False) as Hpub.
  { unfold publish_x. intros r. destruct (publish s) as [[? ?]|]; discriminate. }
  destruct (Nat.eqb si p). { intros H. destruct (Hpub _ H). }
  destruct (_ <=? _). { intros H. destruct (Hpub _ H). }
  destruct (Nat.ltb _ _); [|discriminate]. intros H.
  destruct (virtual_search_x_throw s p x Hp Ep _ _ _ _ _ _
    (ltac:(split; [destruct s; reflexivity|]; split; [auto|]; split; [apply repeat_length|];
      intros i Hi; exists []; rewrite app_nil_r; split; auto; split; auto; cbn; now rewrite nth_repeat) : vrel s s (repeat 0%nat N))
    Hx Hpa H) as (-> & mvs & HV & Hx' & Hpa').
  pose proof (vrel_fields _ _ _ _ HV) as (F1 & F2 & F3 & F4 & F5 & F6 & F7).
  pose proof HV as (_ & HWv & _). split; auto. split; auto. split; [|split].
  - unfold Approx_Proofs.PInv. rewrite F4, Ep. split; auto. split; [eapply has_candidate_vrel; eauto|]. split; auto.
    exists x. rewrite F5. auto.
  - intros X. rewrite F1. apply HC.
  - intros i Hi. unfold Approx_Proofs.pend. eapply vrel_pend; eauto.
Qed.

Definition heads_valid (s : state) : Prop := forall i x, (i < N)%nat -> hd_error (dq s i) = Some x -> valid stamp x.

Lemma mv_PInv i (s : state) p : WF s -> PInv s -> pivot s = Some p -> (i < N)%nat -> i <> p -> PInv (mv i s).
Proof.
  intros HW HP Ep Hi Hne. unfold Approx_Proofs.PInv in *. change (pivot (mv i s)) with (pivot s). rewrite Ep in *.
  destruct HP as (P1 & P2 & P3 & P4). pose proof HW as [W1 W2 _ _]. split; auto. split; [now apply has_candidate_mv|].
  rewrite (mv_pa c), (mv_dq c) by auto. destruct (Nat.eq_dec i p); [congruence|]. auto.
Qed.

Lemma iteration_x_cases (s : state) : WF s -> PInv s -> cv s -> num s = N ->
  exists s' o b, iteration_x stamp c s = Ok (s', o, b) /\
    if (b : bool) then
      o = [] /\ WF s' /\ PInv s' /\ cv s' /\ (forall i, (i < N)%nat -> exists d, pend s i = d ++ pend s' i)
    else heads_valid s /\ exists hs ei et si st, heads s hs /\ extremes f hs ei et si st /\ step_kind f c s hs ei et si st s' o.
Proof.
  intros HW HP HC Hnum. pose proof HW as [W1 W2 W3 W4].
  pose proof (iteration_x_same s) as HS.
  destruct (iteration_cases f c s HW HP Hn Hnum) as (hs' & ei' & et' & si' & st' & s1' & o1' & HH' & HX' & Hit & HK).
  destruct (iteration_x stamp c s) as [[[s' o] b]|a] eqn:Eit; cbn in HS; [|congruence].
  exists s', o, b. split; auto. revert Eit. unfold iteration_x.
  assert (forall i, (i < length (deques s))%nat -> nth i (deques s) [] <> []) as HNE.
  { apply count_full. congruence. }
  destruct (fronts_some _ HNE) as (hs & Ef & HL & Hfr). rewrite Ef.
  assert (heads s hs) as HH. { split; [congruence|]. intros i Hi. apply Hfr. lia. }
  pose proof (stamps_of_ok hs) as HSt. destruct (stamps_of stamp hs) as [ts|].
  2:{ intros [= <- <- <-]. split; auto. split; auto. split; auto. split; auto. intros i Hi. exists []. reflexivity. }
  destruct HSt as (-> & Hval).
  assert (heads_valid s) as HV.
  { intros i x Hi Hx. destruct HH as (HLh & HHn). rewrite <- HHn in Hx by auto. apply nth_error_In in Hx.
    rewrite Forall_forall in Hval. auto. }
  destruct b; [|intros _; split; auto; assert (s1' = s' /\ o1' = o) as (-> & ->) by (split; congruence); exists hs', ei', et', si', st'; auto].
  pose proof (boundary_extremes f hs ltac:(lia)) as HX. cbv zeta in HX.
  destruct (boundary true (map f hs)) as (ei & et). destruct (boundary false (map f hs)) as (si & st). cbn [fst snd] in HX.
  assert (si < N)%nat as Hsi by (destruct HX; lia). assert (ei < N)%nat as Hei by (destruct HX; lia).
  set (s0 := clear_dropped ei s).
  assert (WF s0) as HW0 by (now apply clear_WF). assert (PInv s0) as HP0 by exact HP.
  assert (dq s0 si <> []) as Hdq by (apply HNE; lia).
  assert (forall s1, WF s1 -> deques s1 = deques s0 -> move_front si s1 = Ok (mv si s1)) as Hmv.
  { intros s1 HW1 Ed. apply (move_front_ok c); auto. unfold dq. rewrite Ed. exact Hdq. }
  assert (Hmk : forall s1 a b, deques s1 = deques s0 -> make_candidate a b s1 =
      Ok (mkState (deques s1) (num s1) (map (fun _ => []) (past s1)) (Some hs) a b
                  (pivot s1) (ptime s1) (dropped s1) (warned s1))).
  { intros s1 a b Ed. unfold make_candidate. rewrite Ed. cbn [s0 clear_dropped deques]. now rewrite Ef. }
  pose proof (choose_WF c hs st et ei s0 HW0) as HWc.
  destruct (choose_PInv f c hs ei et si st s0 HW0 HP0 HH HX) as (p & Ep & HPc).
  assert (conclude_x stamp c si et (mv si (choose c hs st et ei s0)) = Ok (s', o, true) ->
    o = [] /\ WF s' /\ PInv s' /\ cv s' /\ (forall i, (i < N)%nat -> exists d, pend s i = d ++ pend s' i)) as Hcon.
  { intros Hc. destruct (Nat.eq_dec si p) as [->|Hne].
    { exfalso. unfold conclude_x in Hc. change (pivot (mv p (choose c hs st et ei s0))) with (pivot (choose c hs st et ei s0)) in Hc.
      rewrite Ep, Nat.eqb_refl in Hc. unfold publish_x in Hc. destruct (publish _) as [[? ?]|]; discriminate. }
    apply conclude_x_throw in Hc.
    - destruct Hc as (-> & A1 & A2 & A3 & A4). split; auto. split; auto. split; auto. split; auto.
      intros i Hi. rewrite A4 by auto. destruct (choose_pend c hs st et ei s0 i HW0) as (d & Hd). exists d.
      change (pend s i) with (pend s0 i). rewrite Hd. unfold Approx_Proofs.pend. now rewrite (mv_pend c) by auto.
    - now apply mv_WF.
    - eapply mv_PInv; eauto.
    - intros X. change (candidate (mv si (choose c hs st et ei s0))) with (candidate (choose c hs st et ei s0)).
      unfold choose. destruct (pivot s0); [destruct (better_heads _ _ _ _)|]; cbn [candidate]; intros Hx; try (injection Hx as <-; auto).
      apply HC. exact Hx. }
  destruct (pivot s0) as [p0|] eqn:Ep0.
  - assert (Hit' : (if st - cstart s0 <=? scale c (et - cend s0)
       then do s2 <- move_front si s0; conclude_x stamp c si et s2
       else do s1 <- make_candidate st et s0; do s2 <- move_front si s1; conclude_x stamp c si et s2)
      = conclude_x stamp c si et (mv si (choose c hs st et ei s0))).
    { unfold choose in HWc |- *. rewrite Ep0 in HWc |- *. unfold better_heads in HWc |- *.
      destruct (Z.leb_spec (st - cstart s0) (scale c (et - cend s0))); cbn [negb] in *.
      - rewrite Hmv by auto. reflexivity.
      - rewrite Hmk by auto. cbn [bind]. rewrite Hmv; auto; [|now rewrite Ep0].
        cbn [bind]. now rewrite Ep0. }
    rewrite Hit'. exact Hcon.
  - destruct (_ <? _). { destruct (delete_front si s0); discriminate. }
    destruct (nth ei (dropped s0) false). { destruct (delete_front si s0); discriminate. }
    assert (Hit' : (do s1 <- make_candidate st et s0;
       do s2 <- move_front si (set_pivot ei et s1); conclude_x stamp c si et s2)
      = conclude_x stamp c si et (mv si (choose c hs st et ei s0))).
    { rewrite Hmk by auto. cbn [bind]. unfold choose in HWc |- *. rewrite Ep0 in HWc |- *.
      unfold set_pivot. cbn [deques num past candidate cstart cend dropped warned].
      rewrite Hmv; auto. }
    rewrite Hit'. exact Hcon.
Qed.

Definition set_ok (X : list E) : Prop := length X = N /\ Forall (valid stamp) X.

Lemma heads_forall (s : state) hs : heads s hs -> heads_valid s -> Forall (valid stamp) hs.
Proof.
  intros (HL & HH) HV. apply Forall_forall. intros x Hx. apply In_nth_error in Hx as (i & Hi).
  assert (i < N)%nat as HiN by (rewrite <- HL; apply nth_error_Some; congruence). rewrite HH in Hi by auto. eauto.
Qed.

Lemma choose_cv (s : state) hs st et ei : heads s hs -> heads_valid s -> cv s -> cv (choose c hs st et ei (clear_dropped ei s)).
Proof.
  intros HH HV HC X. unfold choose. pose proof (heads_forall s hs HH HV).
  destruct (pivot _); [destruct (better_heads _ _ _ _)|]; cbn [candidate]; intros Hx; try (injection Hx as <-; auto).
  apply HC. exact Hx.
Qed.

Lemma step_cv (s : state) hs ei et si st s' o :
  heads s hs -> heads_valid s -> cv s -> step_kind f c s hs ei et si st s' o -> cv s' /\ Forall (Forall (valid stamp)) o.
Proof.
  intros HH HV HC HK. pose proof (choose_cv s hs st et ei HH HV HC) as HCc.
  destruct HK as [Hpv Hc | p cand Hc s2 Hp2 Hc2 HJ | p Hc s2 Hp2 Hne Hag].
  - split; [exact HC|constructor].
  - split; [intros X [=]|]. constructor; auto.
  - split; [exact HCc|constructor].
Qed.

Record XI (s : state) : Prop := { xi_wf : WF s; xi_p : PInv s; xi_cv : cv s }.

Lemma process_x_ok t0 : forall fuel (s : state),
  XI s -> (total (pending s) <= t0)%nat -> (msr s t0 < fuel)%nat ->
  exists s' o b, approx_process_x stamp c fuel s = Ok (s', o, b) /\ XI s' /\ Forall set_ok o /\
    forall i, (i < N)%nat -> subseq (column i o ++ pend s' i) (pend s i).
Proof.
  induction fuel as [|fuel IH]; intros s [HW HP HC] Ht Hm; [lia|]. cbn [approx_process_x].
  destruct (Nat.eqb_spec (num s) N) as [Hnum|Hnum].
  2:{ exists s, [], false. split; auto. split; [split; auto|]. split; [constructor|]. intros. apply subseq_refl. }
  destruct (iteration_x_cases s HW HP HC Hnum) as (s1 & o1 & b & -> & Hb). cbn [bind]. destruct b.
  - destruct Hb as (-> & A1 & A2 & A3 & A4). exists s1, [], true. split; auto. split; [split; auto|]. split; [constructor|].
    intros i Hi. destruct (A4 i Hi) as (d & ->). cbn. apply subseq_app_skip, subseq_refl.
  - destruct Hb as (HV & hs & ei & et & si & st & HH & HX & HK).
    destruct (step_inv _ _ _ _ _ _ _ _ _ _ HW HP Hn HH HX HK) as (HW1 & HP1).
    destruct (step_measure _ _ _ _ _ _ _ _ _ _ t0 HW HP Hn Hnum HH HX HK Ht) as (HT1 & HM1).
    destruct (step_cv _ _ _ _ _ _ _ _ HH HV HC HK) as (HC1 & Hv1).
    destruct (IH s1 ltac:(split; auto) ltac:(lia) ltac:(lia)) as (s2 & o2 & b2 & -> & HI2 & Ho2 & Hs2). cbn [bind].
    exists s2, (o1 ++ o2), b2. split; auto. split; auto. split.
    + apply Forall_app. split; auto. destruct (step_pend _ _ _ _ _ _ _ _ _ _ O HW HP Hn HH HX HK Hn) as (_ & HF).
      clear -HF Hv1. induction HF; constructor; inversion Hv1; subst; auto. split; auto.
    + intros i Hi. destruct (step_pend _ _ _ _ _ _ _ _ _ _ i HW HP Hn HH HX HK Hi) as ((d & Ed) & _).
      rewrite column_app, <- app_assoc, Ed. apply subseq_app_skip. apply subseq_app; auto. apply subseq_refl.
Qed.

Lemma process_x_total (s : state) : XI s ->
  exists s' o b, approx_process_x stamp c (fuel_for s) s = Ok (s', o, b) /\ XI s' /\ Forall set_ok o /\
    forall i, (i < N)%nat -> subseq (column i o ++ pend s' i) (pend s i).
Proof.
  intros HI. apply (process_x_ok (total (pending s))); auto.
  unfold fuel_for, msr. pose proof (pending_total c s (xi_wf _ HI)). nia.
Qed.

Lemma push_eq (s : state) i e : WF s -> (i < N)%nat ->
  set_queues (upd i (dq s i ++ [e]) (deques s)) (if is_nil (dq s i) then S (num s) else num s) (past s) s = push i e s.
Proof.
  intros [W1 W2 W3 W4] Hi. pose proof (count_upd (deques s) i (dq s i ++ [e]) ltac:(lia)) as HC.
  unfold push. f_equal. fold (dq s i) in HC. unfold nz in HC. destruct (dq s i); cbn [is_nil app] in *; lia.
Qed.

Lemma push_XI (s : state) i e : (i < N)%nat -> XI s -> XI (push i e s).
Proof. intros Hi [HW HP HC]. split; [now apply push_WF|now apply push_PInv|exact HC]. Qed.

Lemma check_warned i (s : state) : exists w, fst (check_bound_x stamp c i s) = set_warned w s /\
  forall j, j <> i -> nth j w false = nth j (warned s) false.
Proof.
  assert (s = set_warned (warned s) s) as Es by (destruct s; reflexivity).
  unfold check_bound_x. destruct (nth i (warned s) false); [eauto|].
  destruct (bound_violated_x stamp c i _ _) as [[|]|]; cbn; eauto.
  eexists. split; [reflexivity|]. intros j Hj. apply nth_upd_neq. congruence.
Qed.

Lemma add_process_x_ok (s : state) i e : (i < N)%nat -> XI s ->
  exists s' o b, approx_add_process_x stamp c s i e = Ok (s', o, b) /\ XI s' /\ Forall set_ok o /\
    forall j, (j < N)%nat -> subseq (column j o ++ pend s' j) (pend (push i e s) j).
Proof.
  intros Hi HI. pose proof HI as [HW HP HC]. pose proof HW as [W1 W2 W3 W4].
  unfold approx_add_process_x. rewrite (nth_error_nth' _ []) by lia. fold (dq s i). rewrite push_eq by auto.
  pose proof (push_XI s i e Hi HI) as HI1.
  destruct (is_nil (dq s i)).
  - destruct (Nat.eqb _ _); [now apply process_x_total|].
    exists (push i e s), [], false. split; auto. split; auto. split; [constructor|]. intros. apply subseq_refl.
  - destruct (check_warned i (push i e s)) as (w & Hw & _). destruct (check_bound_x stamp c i (push i e s)) as [s2 b]. cbn in Hw. subst s2.
    exists (set_warned w (push i e s)), [], b. split; auto. destruct HI1 as [A1 A2 A3].
    split; [split; auto; destruct A1; split; auto|]. split; [constructor|]. intros. apply subseq_refl.
Qed.

Lemma add_overflow_x_cases (s : state) i : (i < N)%nat -> WF s ->
  approx_add_overflow_x stamp c s i =
    if Nat.ltb (queue_size c) (length (pend s i)) then
      match pivot s with None => Ok (drop i s, [], false) | Some _ => approx_process_x stamp c (fuel_for (drop i s)) (drop i s) end
    else Ok (s, [], false).
Proof.
  intros Hi HW. pose proof HW as [W1 W2 W3 W4].
  unfold approx_add_overflow_x. fold (dq s i) (pa s i).
  assert (length (pend s i) = length (dq s i) + length (pa s i))%nat as HL
    by (unfold Approx_Proofs.pend; rewrite app_length; lia).
  rewrite HL. destruct (Nat.ltb_spec (queue_size c) (length (dq s i) + length (pa s i))) as [Hov|Hok]; auto.
  cbn [recover_all set_queues deques num past candidate cstart cend pivot ptime dropped warned].
  fold (pending s). rewrite (nth_pending c) by auto. fold (pend s i).
  destruct (pend s i) as [|x q] eqn:Epend; [cbn in HL; lia|].
  assert (count_nonempty (pending s) = count_nonempty (upd i q (pending s))) as EC.
  { pose proof (count_upd (pending s) i q ltac:(rewrite (pending_length c); auto)) as HC.
    rewrite (nth_pending c) in HC by auto. fold (pend s i) in HC. rewrite Epend in HC.
    unfold nz in HC. destruct q; [cbn in *; lia|]. cbn [is_nil] in HC. lia. }
  cbv zeta. rewrite EC. unfold drop. rewrite Epend.
  destruct (pivot s) as [p|] eqn:Ep; reflexivity.
Qed.

Lemma drop_pend' (s : state) i j : WF s -> (i < N)%nat -> pend (drop i s) j = if Nat.eq_dec i j then tl (pend s j) else pend s j.
Proof. intros HW Hi. destruct (drop_pend c i s j HW Hi) as (D1 & D2). unfold Approx_Proofs.pend at 1. rewrite D1, D2. reflexivity. Qed.

Lemma drop_subseq (s : state) i j : WF s -> (i < N)%nat -> subseq (pend (drop i s) j) (pend s j).
Proof.
  intros HW Hi. rewrite drop_pend' by auto. destruct (Nat.eq_dec i j); [|apply subseq_refl].
  destruct (pend s j); [constructor|]. constructor. apply subseq_refl.
Qed.

Lemma drop_XI (s : state) i : (i < N)%nat -> XI s -> XI (drop i s).
Proof.
  intros Hi [HW HP HC]. split; [now apply drop_WF|now apply drop_PInv|].
  intros X. unfold drop. cbn [candidate]. destruct (pivot s); [discriminate|apply HC].
Qed.

Lemma add_overflow_x_ok (s : state) i : (i < N)%nat -> XI s ->
  exists s' o b, approx_add_overflow_x stamp c s i = Ok (s', o, b) /\ XI s' /\ Forall set_ok o /\
    forall j, (j < N)%nat -> subseq (column j o ++ pend s' j) (pend s j).
Proof.
  intros Hi HI. rewrite add_overflow_x_cases by (auto; apply HI).
  destruct (Nat.ltb _ _).
  2:{ exists s, [], false. split; auto. split; auto. split; [constructor|]. intros. apply subseq_refl. }
  pose proof (drop_XI s i Hi HI) as HD. destruct (pivot s).
  - destruct (process_x_total (drop i s) HD) as (s' & o & b & A1 & A2 & A3 & A4). exists s', o, b.
    split; auto. split; auto. split; auto. intros j Hj. eapply subseq_trans; [apply A4; auto|]. apply drop_subseq; auto. apply HI.
  - exists (drop i s), [], false. split; auto. split; auto. split; [constructor|]. intros j Hj. apply drop_subseq; auto. apply HI.
Qed.

Lemma add_x_ok (s : state) i e : (i < N)%nat -> XI s ->
  exists s' o b, approx_add_x stamp c s (i, e) = Ok (s', o, b) /\ XI s' /\ Forall set_ok o /\
    forall j, (j < N)%nat -> subseq (column j o ++ pend s' j) (pend s j ++ stream j [(i, e)]).
Proof.
  intros Hi HI. unfold approx_add_x. cbn [fst snd].
  assert (forall j, pend (push i e s) j = pend s j ++ stream j [(i, e)]) as Hpp.
  { intros j. rewrite (push_pend c) by (auto; apply HI). unfold stream. cbn.
    destruct (Nat.eq_dec i j), (Nat.eqb_spec i j); cbn; try congruence. now rewrite app_nil_r. }
  destruct (add_process_x_ok s i e Hi HI) as (s1 & o1 & b1 & -> & A2 & A3 & A4). cbn [bind]. destruct b1.
  - exists s1, o1, true. split; auto. split; auto. split; auto. intros j Hj. rewrite <- Hpp. auto.
  - destruct (add_overflow_x_ok s1 i Hi A2) as (s2 & o2 & b2 & -> & B2 & B3 & B4). cbn [bind].
    exists s2, (o1 ++ o2), b2. split; auto. split; auto. split; [now apply Forall_app|].
    intros j Hj. rewrite <- Hpp, column_app, <- app_assoc. eapply subseq_trans; [|apply A4; auto].
    apply subseq_app; [apply subseq_refl|auto].
Qed.

Lemma init_XI : XI (init c).
Proof. destruct (init_Inv f c (E := E) Hn) as [A1 A2 _]. split; auto. intros X [=]. Qed.

Lemma run_x_ok h : (forall i e, In (i, e) h -> (i < N)%nat) -> forall s, XI s ->
  exists s' tr, run_x (approx_add_x stamp c) s h = Ok (s', tr) /\ XI s' /\ Forall set_ok (emitted tr) /\
    (forall j, (j < N)%nat -> subseq (column j (emitted tr) ++ pend s' j) (pend s j ++ stream j h)) /\
    (Forall (fun r => snd r = false) tr -> run f c s h = Ok (s', emitted tr)) /\
    ((forall e, valid stamp e) -> Forall (fun r => snd r = false) tr).
Proof.
  induction h as [|[i e] h IH]; intros HW s HI; cbn [run_x].
  - exists s, []. split; auto. split; auto. split; [constructor|]. split; [intros; cbn; rewrite app_nil_r; apply subseq_refl|]. auto.
  - assert (i < N)%nat as Hi by (apply (HW i e); cbn; auto).
    pose proof (add_x_same s (i, e)) as HS.
    destruct (add_x_ok s i e Hi HI) as (s1 & o & b & Ea & A2 & A3 & A4). rewrite Ea in HS |- *. cbn [bind].
    destruct (IH ltac:(intros j x Hx; apply (HW j x); cbn; auto) s1 A2) as (s' & tr & -> & B2 & B3 & B4 & B5 & B6). cbn [bind].
    exists s', ((o, b) :: tr). split; auto. split; auto. rewrite emitted_cons. cbn [fst]. split; [now apply Forall_app|]. split; [|split].
    + intros j Hj. rewrite column_app, <- app_assoc. change ((i, e) :: h) with ([(i, e)] ++ h). rewrite stream_app, (app_assoc (pend s j)).
      eapply subseq_trans; [apply subseq_app; [apply subseq_refl|apply B4; auto]|].
      rewrite app_assoc. apply subseq_app; [apply A4; auto|apply subseq_refl].
    + intros HF. inversion HF; subst. cbn in *. subst b. cbn [run]. rewrite HS. cbn [bind]. rewrite B5 by auto. reflexivity.
    + intros Hall. constructor; auto. cbn. destruct b; auto. cbn in HS. destruct HS as (x & Hx). destruct (Hall x Hx).
Qed.

(** * A message that blocks *)
Record blocked (s : state) : Prop := { bl_wf : WF s; bl_pivot : pivot s = None; bl_past : forall j, pa s j = [] }.

Lemma blocked_pend s j : blocked s -> pend s j = dq s j.
Proof. intros [_ _ H]. unfold Approx_Proofs.pend. now rewrite H. Qed.

Lemma blocked_push s k e : blocked s -> blocked (push k e s).
Proof. intros [A1 A2 A3]. split; auto. now apply push_WF. Qed.

Lemma drop_blocked s k : (k < N)%nat -> WF s -> blocked (drop k s).
Proof. intros Hk HW. split; [now apply drop_WF|reflexivity|]. intros j. now apply (drop_pend c). Qed.

Lemma process_x_bad (s : state) : WF s -> num s = N ->
  (exists i x, (i < N)%nat /\ hd_error (dq s i) = Some x /\ invalid stamp x) ->
  approx_process_x stamp c (fuel_for s) s = Ok (s, [], true).
Proof.
  intros HW Hnum (i & x & Hi & Hx & Hinv). pose proof HW as [W1 W2 W3 W4].
  unfold fuel_for. cbn [approx_process_x]. rewrite Hnum, Nat.eqb_refl.
  assert (forall i, (i < length (deques s))%nat -> nth i (deques s) [] <> []) as HNE.
  { apply count_full. congruence. }
  unfold iteration_x. destruct (fronts_some _ HNE) as (hs & -> & HL & Hfr).
  pose proof (stamps_of_ok hs) as HSt. destruct (stamps_of stamp hs) as [ts|]; [|reflexivity].
  exfalso. destruct HSt as (_ & HF). rewrite Forall_forall in HF. apply (HF x); auto.
  apply (nth_error_In hs i). rewrite Hfr by lia. exact Hx.
Qed.

Lemma blocked_add (s : state) k e : (k < N)%nat -> blocked s ->
  (dq s k = [] -> num (push k e s) = N -> exists i x, (i < N)%nat /\ hd_error (dq (push k e s) i) = Some x /\ invalid stamp x) ->
  exists s' b, approx_add_x stamp c s (k, e) = Ok (s', [], b) /\ blocked s' /\
    (forall j, j <> k -> dq s' j = dq s j /\ nth j (warned s') false = nth j (warned s) false) /\
    dq s' k <> [] /\
    (invalid stamp e -> nth k (warned s) false = false -> dq s' k = dq s k ++ [e] /\ nth k (warned s') false = false) /\
    ((length (dq s k ++ [e]) <= queue_size c)%nat -> dq s' k = dq s k ++ [e]).
Proof.
  intros Hk HB Hbad. pose proof HB as [HW Hpv Hpa]. pose proof HW as [W1 W2 W3 W4].
  unfold approx_add_x, approx_add_process_x. cbn [fst snd]. rewrite (nth_error_nth' _ []) by lia. fold (dq s k). rewrite push_eq by auto.
  pose proof (blocked_push s k e HB) as HB1. pose proof (bl_wf _ HB1) as HW1.
  assert (dq (push k e s) k = dq s k ++ [e]) as Hpk.
  { rewrite (push_dq c) by auto. destruct (Nat.eq_dec k k); congruence. }
  assert (forall j, j <> k -> dq (push k e s) j = dq s j) as Hpj.
  { intros j Hj. rewrite (push_dq c) by auto. destruct (Nat.eq_dec k j); congruence. }
  assert (dq s k ++ [e] <> []) as Hne by (destruct (dq s k); discriminate).
  (* the overflow *)
  assert (forall w, (forall j, j <> k -> nth j w false = nth j (warned s) false) ->
    exists s' b, (do '(s2, o2, b2) <- approx_add_overflow_x stamp c (set_warned w (push k e s)) k; Ok (s2, [] ++ o2, b2)) = Ok (s', [], b) /\
      blocked s' /\ (forall j, j <> k -> dq s' j = dq s j /\ nth j (warned s') false = nth j (warned s) false) /\
      dq s' k <> [] /\ nth k (warned s') false = nth k w false /\
      ((length (dq s k ++ [e]) <= queue_size c)%nat -> dq s' k = dq s k ++ [e])) as Hov.
  { intros w Hw. set (s1 := set_warned w (push k e s)).
    assert (blocked s1) as HBs by (destruct HB1 as [[? ? ? ?] ? ?]; split; auto; split; auto).
    assert (pend s1 k = dq s k ++ [e]) as Hp1 by (rewrite blocked_pend by auto; exact Hpk).
    rewrite add_overflow_x_cases by (auto; apply HBs). rewrite Hp1.
    replace (pivot s1) with (@None nat) by (symmetry; apply HBs).
    destruct (Nat.ltb_spec (queue_size c) (length (dq s k ++ [e]))) as [Hlt|Hge]; cbn [bind].
    - exists (drop k s1), false. split; auto. split; [apply drop_blocked; auto; apply HBs|].
      assert (forall j, dq (drop k s1) j = if Nat.eq_dec k j then tl (pend s1 j) else pend s1 j) as Hd
        by (intros j; apply (drop_pend c); auto; apply HBs).
      split; [|split; [|split]].
      + intros j Hj. split; [|now apply Hw]. rewrite Hd. destruct (Nat.eq_dec k j); [congruence|].
        rewrite blocked_pend by auto. now apply Hpj.
      + rewrite Hd. destruct (Nat.eq_dec k k); [|congruence]. rewrite Hp1.
        rewrite app_length in Hlt. cbn in Hlt. destruct (dq s k) as [|x [|y l]]; cbn in *; try lia; discriminate.
      + reflexivity.
      + lia.
    - exists s1, false. split; auto. split; auto. split; [|split; [|split]].
      + intros j Hj. split; [now apply Hpj|now apply Hw].
      + change (dq s1 k) with (dq (push k e s) k). now rewrite Hpk.
      + reflexivity.
      + intros _. exact Hpk. }
  destruct (dq s k) as [|y l] eqn:Edq; cbn [is_nil].
  - destruct (Nat.eqb_spec (num (push k e s)) N) as [Hnum|Hnum].
    + rewrite process_x_bad by auto. cbn [bind]. exists (push k e s), true. split; auto. split; auto.
      split; [intros j Hj; split; [now apply Hpj|reflexivity]|]. rewrite Hpk. split; auto.
    + cbn [bind]. destruct (Hov (warned s) ltac:(auto)) as (s' & b & H1 & H2 & H3 & H4 & H5 & H6).
      assert (set_warned (warned s) (push k e s) = push k e s) as Esw by (destruct s; reflexivity). rewrite Esw in H1. rewrite H1.
      exists s', b. split; auto. split; auto. split; auto. split; auto. split; auto.
      intros _ Hw. rewrite H5. split; auto; apply H6; cbn; lia.
  - destruct (check_warned k (push k e s)) as (w & Hw & Hwj).
    destruct (check_bound_x stamp c k (push k e s)) as [s2 b2] eqn:Ecb. cbn in Hw. subst s2. cbn [bind]. destruct b2.
    + exists (set_warned w (push k e s)), true. split; auto.
      assert (set_warned w (push k e s) = push k e s) as ->.
      { pose proof (check_bound_x_ok k (push k e s)) as H. rewrite Ecb in H. apply H. }
      split; auto. split; [intros j Hj; split; [now apply Hpj|reflexivity]|]. rewrite Hpk. split; auto.
    + destruct (Hov w) as (s' & b & H1 & H2 & H3 & H4 & H5 & H6); [exact Hwj|]. rewrite H1. exists s', b.
      split; auto. split; auto. split; auto. split; auto. split; auto.
      intros Hinv Hwk. exfalso. revert Ecb. unfold check_bound_x. change (warned (push k e s)) with (warned s). rewrite Hwk.
      change (nth k (deques (push k e s)) []) with (dq (push k e s) k). rewrite Hpk. unfold bound_violated_x.
      rewrite rev_app_distr. cbn [rev app]. rewrite Hinv. discriminate.
Qed.

(** Once process() threw without a pivot it never runs again. *)
Definition dead (s : state) : Prop := blocked s /\ num s = N.

Lemma full_num (s : state) : WF s -> (forall j, (j < N)%nat -> dq s j <> []) -> num s = N.
Proof.
  intros [W1 W2 W3 W4] H. rewrite W4, <- W1. assert (forall i, (i < length (deques s))%nat -> nth i (deques s) [] <> []) as HE.
  { intros i Hi. apply H. lia. }
  clear -HE. induction (deques s) as [|q qs IH]; cbn; auto. pose proof (HE O ltac:(cbn; lia)) as H0. cbn in H0.
  destruct q; [congruence|]. cbn. f_equal. apply IH. intros i Hi. apply (HE (S i)). cbn. lia.
Qed.

Lemma dead_run h : (forall i e, In (i, e) h -> (i < N)%nat) -> forall s, dead s ->
  exists s' tr, run_x (approx_add_x stamp c) s h = Ok (s', tr) /\ dead s' /\ emitted tr = [].
Proof.
  induction h as [|[k e] h IH]; intros HWf s HD; cbn [run_x].
  - exists s, []. auto.
  - assert (k < N)%nat as Hk by (apply (HWf k e); cbn; auto). pose proof HD as (HB & Hnum).
    pose proof (bl_wf _ HB) as HW. pose proof HW as [W1 W2 W3 W4].
    assert (forall i, (i < length (deques s))%nat -> nth i (deques s) [] <> []) as HNE by (apply count_full; congruence).
    destruct (blocked_add s k e Hk HB) as (s' & b & -> & HB' & Hj & Hne & _).
    { intros Hnil. exfalso. apply (HNE k); auto. lia. }
    cbn [bind]. destruct (IH ltac:(intros j x Hx; apply (HWf j x); cbn; auto) s') as (s2 & tr & -> & HD2 & He).
    { split; auto. apply full_num; [apply HB'|]. intros j Hjn. destruct (Nat.eq_dec j k) as [->|Hjk]; auto.
      destruct (Hj j Hjk) as (-> & _). apply HNE. lia. }
    cbn [bind]. exists s2, (([], b) :: tr). split; auto.
Qed.

Lemma init_blocked : blocked (init c).
Proof.
  destruct init_XI as [A1 A2 A3]. split; [exact A1|reflexivity|]. intros j. unfold pa. cbn. apply nth_repeat_nil.
Qed.

Lemma count_push (s : state) k e : WF s -> (k < N)%nat -> num (push k e s) = N -> forall j, (j < N)%nat -> dq (push k e s) j <> [].
Proof.
  intros HW Hk Hnum j Hj. pose proof (push_WF c k e s HW) as [W1 W2 W3 W4].
  assert (forall i, (i < length (deques (push k e s)))%nat -> nth i (deques (push k e s)) [] <> []) as HNE by (apply count_full; congruence).
  apply HNE. lia.
Qed.

(** An input that delivers only invalid messages: they are all held. *)
Lemma all_invalid h i : (i < N)%nat -> (forall j e, In (j, e) h -> (j < N)%nat) -> Forall (invalid stamp) (stream i h) ->
  exists s tr, run_x (approx_add_x stamp c) (init c) h = Ok (s, tr) /\ emitted tr = [] /\ blocked s /\
    dq s i = stream i h /\ nth i (warned s) false = false.
Proof.
  intros Hi. induction h as [|[k e] h IH] using rev_ind; intros HWf HF.
  - exists (init c), []. split; auto. split; auto. split; [apply init_blocked|]. split.
    + unfold dq. cbn. apply nth_repeat_nil.
    + cbn. clear. revert i. induction N; destruct i; cbn; auto.
  - assert (k < N)%nat as Hk by (apply (HWf k e); apply in_or_app; cbn; auto).
    rewrite stream_app in HF |- *. apply Forall_app in HF as (HF & HFe).
    destruct IH as (s & tr & Hr & He & HB & Hdq & Hw); auto. { intros j x Hx. apply (HWf j x). apply in_or_app; auto. }
    rewrite run_x_app, Hr. cbn [bind run_x].
    assert (stream i [(k, e)] = if Nat.eqb k i then [e] else []) as Hst by (unfold stream; cbn; destruct (Nat.eqb k i); reflexivity).
    rewrite Hst in HFe |- *.
    destruct (blocked_add s k e Hk HB) as (s' & b & -> & HB' & Hj & Hne & Hinv & _).
    { intros Hnil Hnum. pose proof (count_push s k e (bl_wf _ HB) Hk Hnum i Hi) as Hnei.
      destruct (dq (push k e s) i) as [|x l] eqn:Ed; [congruence|]. exists i, x. rewrite Ed. split; auto. split; auto.
      rewrite (push_dq c), Hdq in Ed by (auto; apply HB). destruct (Nat.eq_dec k i) as [->|Hki].
      - rewrite Nat.eqb_refl in HFe. destruct (stream i h); inversion Ed; subst; [inversion HFe|inversion HF]; auto.
      - rewrite Ed in HF. inversion HF; auto. }
    cbn [bind]. exists s', (tr ++ [([], b)]). split; auto. rewrite emitted_app, He. split; auto. split; auto.
    destruct (Nat.eqb_spec k i) as [->|Hki].
    + inversion HFe; subst. destruct (Hinv ltac:(auto) Hw) as (-> & ->). now rewrite Hdq.
    + destruct (Hj i ltac:(auto)) as (-> & ->). rewrite app_nil_r. auto.
Qed.

(** The first message of input [i] is invalid. *)
Lemma first_invalid h i : (i < N)%nat -> (forall j e, In (j, e) h -> (j < N)%nat) ->
  (exists b r, stream i h = b :: r /\ invalid stamp b) -> (length (stream i h) <= queue_size c)%nat ->
  (forall j, (j < N)%nat -> stream j h <> []) ->
  exists s tr, run_x (approx_add_x stamp c) (init c) h = Ok (s, tr) /\ emitted tr = [] /\ dead s.
Proof.
  intros Hi HWf (b & r & Hb & Hinv) Hlen Hall.
  assert (forall p p', h = p ++ p' -> exists s tr, run_x (approx_add_x stamp c) (init c) p = Ok (s, tr) /\ emitted tr = [] /\
     blocked s /\ dq s i = stream i p /\ forall j, (j < N)%nat -> dq s j = [] -> stream j p = []) as H.
  { induction p as [|[k e] p IH] using rev_ind; intros p' Ep.
    - exists (init c), []. split; auto. split; auto. split; [apply init_blocked|]. split; auto. unfold dq. cbn. apply nth_repeat_nil.
    - rewrite <- app_assoc in Ep. destruct (IH _ Ep) as (s & tr & Hr & He & HB & Hdq & Hnil). clear IH.
      assert (k < N)%nat as Hk by (apply (HWf k e); rewrite Ep; apply in_or_app; right; cbn; auto).
      assert (forall j, stream j [(k, e)] = if Nat.eqb k j then [e] else []) as Hst by (intros j; unfold stream; cbn; destruct (Nat.eqb k j); reflexivity).
      assert (stream i h = stream i p ++ (if Nat.eqb k i then [e] else []) ++ stream i p') as Hsi.
      { rewrite Ep, !stream_app, Hst. reflexivity. }
      rewrite run_x_app, Hr. cbn [bind run_x].
      destruct (blocked_add s k e Hk HB) as (s' & bb & -> & HB' & Hj & Hne & _ & Hkeep).
      { intros _ Hnum. pose proof (count_push s k e (bl_wf _ HB) Hk Hnum i Hi) as Hnei.
        exists i, b. split; auto. split; auto. revert Hnei. rewrite (push_dq c), Hdq by (auto; apply HB). rewrite Hsi in Hb.
        destruct (Nat.eq_dec k i) as [->|Hki].
        - rewrite Nat.eqb_refl in Hb. destruct (stream i p); cbn in *; congruence.
        - apply Nat.eqb_neq in Hki. rewrite Hki in Hb. destruct (stream i p); cbn in *; congruence. }
      cbn [bind]. exists s', (tr ++ [([], bb)]). split; auto. rewrite emitted_app, He. split; auto. split; auto. split.
      + rewrite stream_app, Hst. destruct (Nat.eqb_spec k i) as [->|Hki].
        * rewrite Hkeep; [now rewrite Hdq|]. rewrite Hdq. rewrite Hsi in Hlen. rewrite !app_length in *. cbn in *. lia.
        * destruct (Hj i ltac:(auto)) as (-> & _). now rewrite app_nil_r.
      + intros j Hjn Hjnil. rewrite stream_app, Hst. destruct (Nat.eqb_spec k j) as [->|Hkj]; [congruence|].
        destruct (Hj j ltac:(auto)) as (Hjd & _). rewrite app_nil_r. apply Hnil; auto. congruence. }
  destruct (H h [] ltac:(now rewrite app_nil_r)) as (s & tr & Hr & He & HB & _ & Hnil). exists s, tr. split; auto. split; auto.
  split; auto. apply full_num; [apply HB|]. intros j Hj Hjn. apply (Hall j Hj). auto.
Qed.
End P.
