(** Properties C37, C66-C68 and C91 of LatestTime with the arithmetic of [double]. *)
From Coq Require Import List Arith ZArith Reals Lra Lia SpecFloat Bool.
From Flocq Require Import Core.Core IEEE754.BinarySingleNaN.
From Verif Require Import Base RclTime Trace Latest_Model Latest_Spec Latest_Proofs Latest_Props
  LatestDouble_Model LatestDouble_Spec LatestDouble_Laws LatestDouble_Bounds LatestDouble_Rate LatestDouble_Steady LatestDouble_Estimate.
Import ListNotations.
Open Scope nat_scope.

(** ** C37: the test on the clock, in doubles *)
(** Only a clock that has advanced gives a period: the conversion to seconds loses nothing
    that matters. *)
Theorem C37_latest_double_clock_test z : fle dops (fsecs dops z) (fzero dops) = (z <=? 0)%Z.
Proof. apply double_sign. Qed.

Theorem C37_latest_double_stalled_clock_is_quiet {E} n d k (h : list (op E double)) i e t e' t' s outs :
  well_indexed n (h ++ [Add i e' t']) -> started_in_order n (h ++ [Add i e' t']) -> one_clock k (h ++ [Add i e' t']) ->
  In (Add i e t) h -> (ns t' <= ns t)%Z ->
  run dops n d (init n) h = Ok (s, outs) ->
  exists s', run dops n d (init n) (h ++ [Add i e' t']) = Ok (s', outs ++ [Quiet]) /\ rates s' = rates s.
Proof. apply C37_latest_stalled_clock_is_quiet. apply double_sign. Qed.

(** ** C91: the estimates are numbers, and the inputs are sorted by an order *)
Theorem C91_latest_estimates_are_numbers {E} n d (h : list (op E double)) s outs :
  sensible d -> well_indexed n h -> sensible_history h -> run dops n d (init n) h = Ok (s, outs) ->
  (forall r, In r (rates s) -> number (hz r) /\ SFleb (double_of_Z 0) (hz r) = true /\
                               number (error r) /\ SFleb (double_of_Z 0) (error r) = true) /\
  comparable dops (rates s).
Proof.
  intros Hd HW HS Hr. destruct (run_ok n d Hd h s outs HW HS Hr) as [H _]. split; [|now apply ok_comparable].
  rewrite Forall_forall in H. intros r Hin. destruct (H r Hin) as (_ & _ & Fh & Vh & Fe & Ve).
  destruct zero_val as [F0 V0]. rewrite !number_fin, !leb_val, V0 by auto. repeat split; try apply Fh; try apply Fe; apply Rle_bool_true; lra.
Qed.

(** ** C66: the input that triggers the output *)
Theorem C66_latest_double_pivot {E} n d k (h : list (op E double)) i e t s outs s' x r :
  sensible d -> sensible_history (h ++ [Add i e t]) ->
  well_indexed n (h ++ [Add i e t]) -> one_clock k (h ++ [Add i e t]) ->
  run dops n d (init n) h = Ok (s, outs) -> received i h <> [] -> nth_error (rates s) i = Some r ->
  run dops n d (init n) (h ++ [Add i e t]) = Ok (s', outs ++ [x]) ->
  (exists set, x = Published set) <->
  (ns (prev r) < ns t)%Z /\ (forall j, j < n -> received j (h ++ [Add i e t]) <> []) /\ fastest dops t (rates s') i.
Proof.
  intros Hd HS HW HK Hr Hrec Hn Hr'.
  rewrite (C66_latest_pivot dops n d k h i e t s outs s' x r HW HK Hr Hrec Hn Hr').
  - rewrite double_sign, Z.leb_gt. split; intros (H1 & H2); (split; [lia|auto]).
  - apply (C91_latest_estimates_are_numbers n d (h ++ [Add i e t]) s' (outs ++ [x])); auto.
Qed.

(** ** C67: strictly periodic inputs *)
(** What happens, for all periods: a message outputs exactly if every input has one and every
    other input that has a rate is either late or slower.  The rate of an input of period [p]
    is 1/p after an even number of messages and the smoothed 1/p after an odd number. *)
Theorem C67_latest_double_periodic {E} n d (P start : nat -> Z) k (cf : nat -> config double) (h : list (op E double)) i e t s outs s' x :
  (forall j, j < n -> (0 < P j <= 2 ^ 64)%Z) -> (forall j, j < n -> sensible (cf j)) ->
  well_indexed n (h ++ [Add i e t]) -> started_in_order n (h ++ [Add i e t]) ->
  on_schedule n P start k (h ++ [Add i e t]) -> configured n d cf (h ++ [Add i e t]) ->
  run dops n d (init n) h = Ok (s, outs) -> run dops n d (init n) (h ++ [Add i e t]) = Ok (s', outs ++ [x]) ->
  (exists set, x = Published set) <->
  (forall j, j < n -> received j (h ++ [Add i e t]) <> []) /\ received i h <> [] /\
  (forall j, j < n -> j <> i -> 2 <= length (received j h) ->
     let last := (start j + P j * (Z.of_nat (length (received j h)) - 1))%Z in
     overdue (rate_alpha (cf j)) (P j) (length (received j h)) (ns t - last) \/
     preferred i j (rate_after (rate_alpha (cf i)) (P i) (S (length (received i h))))
                   (rate_after (rate_alpha (cf j)) (P j) (length (received j h)))).
Proof. intros HP HC. now apply steady. Qed.

Lemma rate_after_rel a p c : weight a -> tick p ->
  ((1 - bpow radix2 (-50)) * val (rate_of p) <= val (rate_after a p c) <= (1 + bpow radix2 (-50)) * val (rate_of p))%R.
Proof.
  intros Ha Hp. apply weight_val in Ha as [Fa Va]. unfold rate_after. destruct (Nat.even c); [|now apply smoothed_rel].
  pose proof (inv_pos p Hp). pose proof (bpow_gt_0 radix2 (-50)). nra.
Qed.
Lemma settled_after a p c : settled a p -> rate_after a p c = rate_of p.
Proof. unfold rate_after, settled. now destruct (Nat.even c). Qed.

(** An input is not late before its next message is due, nor when it is due if it is settled. *)
Lemma not_overdue a p c z : weight a -> (0 < p <= 2 ^ 46)%Z -> (z < p)%Z \/ (z <= p)%Z /\ settled a p -> ~ overdue a p c z.
Proof.
  intros Ha Hp Hz (Hz0 & Hlt). assert (Tp : tick p) by (unfold tick; lia). assert (Tz : tick z) by (unfold tick; lia).
  destruct (rate_after_val a p c Ha Tp) as [Fr _]. destruct (inv_val z Tz) as (Fz & _ & _).
  rewrite ltb_val in Hlt by auto. revert Hlt. case Rlt_bool_spec; [|discriminate]. intros Hlt _.
  destruct Hz as [Hz|[Hz Hs]].
  - pose proof (rate_after_rel a p c Ha Tp). pose proof (inv_gap z p ltac:(lia) ltac:(lia)) as Hg.
    pose proof (inv_pos z Tz). pose proof (bpow_gt_0 radix2 (-50)). nra.
  - rewrite settled_after in Hlt by auto. pose proof (inv_antitone z p Tz Tp Hz). lra.
Qed.

Lemma faster_preferred i j a b p q c c' : weight a -> weight b -> (0 < p < q)%Z -> (q <= 2 ^ 46)%Z ->
  preferred i j (rate_after a p c) (rate_after b q c') /\ ~ preferred j i (rate_after b q c') (rate_after a p c).
Proof.
  intros Ha Hb Hp Hq. assert (Tp : tick p) by (unfold tick; lia). assert (Tq : tick q) by (unfold tick; lia).
  destruct (rate_after_val a p c Ha Tp) as [Fa _]. destruct (rate_after_val b q c' Hb Tq) as [Fb _].
  pose proof (rate_after_rel a p c Ha Tp). pose proof (rate_after_rel b q c' Hb Tq). pose proof (inv_gap p q Hp Hq).
  assert (Hlt : (val (rate_after b q c') < val (rate_after a p c))%R) by lra.
  unfold preferred. rewrite !ltb_val by auto. rewrite (Rlt_bool_true _ _ Hlt), (Rlt_bool_false (val (rate_after a p c))) by lra.
  split; [auto|]. intros [H2|[H2 _]]; discriminate.
Qed.

(** Outputs happen exactly on the messages of the fastest input (C67), provided inputs of
    equal period are settled, and no other message is handled at the very instant at which an
    input that is not settled has its next message due.  Missing: these two provisos. *)
Theorem C67_latest_double_periodic_partial {E} n d (P start : nat -> Z) k (cf : nat -> config double) (h : list (op E double)) i e t s outs s' x :
  (forall j, j < n -> (0 < P j <= 2 ^ 46)%Z) -> (forall j, j < n -> sensible (cf j)) ->
  well_indexed n (h ++ [Add i e t]) -> started_in_order n (h ++ [Add i e t]) ->
  on_schedule n P start k (h ++ [Add i e t]) -> configured n d cf (h ++ [Add i e t]) ->
  (forall a b, a < n -> b < n -> a <> b -> P a = P b -> settled (rate_alpha (cf a)) (P a)) ->
  (forall j, j < n -> j <> i -> settled (rate_alpha (cf j)) (P j) \/
     (received j h <> [] -> ns t < start j + P j * Z.of_nat (length (received j h)))%Z) ->
  run dops n d (init n) h = Ok (s, outs) -> run dops n d (init n) (h ++ [Add i e t]) = Ok (s', outs ++ [x]) ->
  (exists set, x = Published set) <->
  (forall j, j < n -> received j (h ++ [Add i e t]) <> []) /\ received i h <> [] /\
  (forall j, j < n -> 2 <= length (received j (h ++ [Add i e t])) -> (P i < P j)%Z \/ P i = P j /\ i <= j).
Proof.
  intros HP HC HW HO HS Hcf Heq Hdue Hr Hr'.
  rewrite (C67_latest_double_periodic n d P start k cf h i e t s outs s' x); auto;
    [|intros j Hj; specialize (HP j Hj); lia].
  pose proof HW as HW'. apply well_indexed_snoc in HW' as [_ Hi]. specialize (Hi i e t eq_refl).
  apply Latest_Steady.on_schedule_snoc in HS as [_ Hs]. destruct (Hs i e t eq_refl) as (_ & _ & Ht).
  assert (Hno : forall j, j < n -> j <> i -> 2 <= length (received j h) ->
    ~ overdue (rate_alpha (cf j)) (P j) (length (received j h)) (ns t - (start j + P j * (Z.of_nat (length (received j h)) - 1)))).
  { intros j Hj Hne H2. assert (Hrj : received j h <> []) by (intros H; rewrite H in H2; cbn in H2; lia).
    specialize (Ht j Hj Hrj). apply not_overdue; [apply (HC j Hj)|auto|].
    destruct (Hdue j Hj Hne) as [Hst|Hlt]; [right; split; [lia|auto]|left; specialize (Hlt Hrj); lia]. }
  assert (Hrec : forall j, j <> i -> received j (h ++ [Add i e t]) = received j h).
  { intros j Hne. rewrite received_add. destruct (Nat.eqb_spec i j); [congruence|]. apply app_nil_r. }
  assert (Hpref : forall j c c', j < n -> j <> i ->
    (preferred i j (rate_after (rate_alpha (cf i)) (P i) c) (rate_after (rate_alpha (cf j)) (P j) c') <->
     (P i < P j)%Z \/ P i = P j /\ i <= j)).
  { intros j c c' Hj Hne. assert (Hai : weight (rate_alpha (cf i))) by apply (HC i Hi). assert (Haj : weight (rate_alpha (cf j))) by apply (HC j Hj).
    pose proof (HP i Hi) as Pi. pose proof (HP j Hj) as Pj.
    destruct (Z_dec (P i) (P j)) as [[Hlt|Hgt]|He].
    - destruct (faster_preferred i j (rate_alpha (cf i)) (rate_alpha (cf j)) (P i) (P j) c c' Hai Haj ltac:(lia) ltac:(lia)) as [H _]. split; auto.
    - destruct (faster_preferred j i (rate_alpha (cf j)) (rate_alpha (cf i)) (P j) (P i) c' c Haj Hai ltac:(lia) ltac:(lia)) as [_ H].
      split; [intros H'; contradiction|lia].
    - rewrite !settled_after; [|apply (Heq j i); auto|apply (Heq i j); auto]. rewrite He. unfold preferred.
      assert (Tj : tick (P j)) by (unfold tick; lia). destruct (inv_val (P j) Tj) as (Fj & _ & _).
      rewrite ltb_val by auto. rewrite Rlt_bool_false by lra. split; [intros [H|[_ H]]; [discriminate|right; lia]|intros [H|[_ H]]; [lia|right; split; auto; lia]]. }
  split; intros (H1 & H2 & H3); split; auto; split; auto.
  - intros j Hj Hc. destruct (Nat.eq_dec j i) as [->|Hne]; [right; auto|]. rewrite Hrec in Hc by auto.
    destruct (H3 j Hj Hne Hc) as [H|H]; [exfalso; now apply (Hno j)|]. now apply Hpref in H.
  - intros j Hj Hne Hc. right. apply Hpref; auto. apply H3; auto. rewrite Hrec; auto.
Qed.

(** Two inputs of the same period that is not settled: from their second message on, only
    every other message of input 0 triggers an output. *)
Theorem C67_latest_double_every_other {E} d p off start k c (h : list (op E double)) i e t s outs s' x :
  let P := fun _ : nat => p in let st := fun j => (if Nat.eqb j 0 then start else start + off)%Z in
  (0 < p <= 2 ^ 46)%Z -> (0 < off < p)%Z -> sensible c -> ~ settled (rate_alpha c) p ->
  well_indexed 2 (h ++ [Add i e t]) -> started_in_order 2 (h ++ [Add i e t]) ->
  on_schedule 2 P st k (h ++ [Add i e t]) -> configured 2 d (fun _ => c) (h ++ [Add i e t]) ->
  2 <= length (received 0 h) -> 2 <= length (received 1 h) ->
  run dops 2 d (init 2) h = Ok (s, outs) -> run dops 2 d (init 2) (h ++ [Add i e t]) = Ok (s', outs ++ [x]) ->
  (exists set, x = Published set) <->
  i = 0 /\ Nat.even (S (length (received 0 h))) = SFltb (smoothed (rate_alpha c) p) (rate_of p).
Proof.
  intros P st Hp Hoff Hc Hns HW HO HS Hcf H0 H1 Hr Hr'.
  rewrite (C67_latest_double_periodic 2 d P st k (fun _ => c) h i e t s outs s' x); auto; [|intros j _; unfold P; lia].
  pose proof HW as HW'. apply well_indexed_snoc in HW' as [_ Hi]. specialize (Hi i e t eq_refl).
  apply Latest_Steady.on_schedule_snoc in HS as [_ Hs]. destruct (Hs i e t eq_refl) as (_ & Hti & Ht). clear Hs.
  assert (Hrec : forall j, j < 2 -> received j h <> []).
  { intros j Hj Habs. destruct j as [|[|]]; [rewrite Habs in H0; cbn in H0; lia|rewrite Habs in H1; cbn in H1; lia|lia]. }
  assert (Hrec' : forall j, j < 2 -> received j (h ++ [Add i e t]) <> []).
  { intros j Hj. rewrite received_add. intros Habs. apply app_eq_nil in Habs as [Habs _]. now apply (Hrec j). }
  assert (Tp : tick p) by (unfold tick; lia). destruct Hc as (Ha & _). set (a := rate_alpha c) in *.
  assert (Fs : fin (smoothed a p)) by (apply weight_val in Ha as [Fa Va]; now apply smoothed_rel).
  destruct (inv_val p Tp) as (Fp & _ & _).
  assert (Hd : val (smoothed a p) <> val (rate_of p)).
  { intros H. apply Hns. apply val_inj; auto. apply weight_val in Ha as [Fa Va]. pose proof (proj2 (smoothed_val a p Fa Va Tp)). lra. }
  destruct i as [|[|i]]; [| |lia].
  - specialize (Ht 1 ltac:(lia) (Hrec 1 ltac:(lia))). unfold P, st in Hti, Ht. cbn [Nat.eqb] in Hti, Ht.
    assert (Hcc : length (received 1 h) = length (received 0 h)) by nia.
    assert (Hno : ~ overdue a p (length (received 1 h)) (ns t - (st 1 + p * (Z.of_nat (length (received 1 h)) - 1)))).
    { apply not_overdue; auto. left. unfold st. cbn [Nat.eqb]. rewrite Hti, Hcc. nia. }
    assert (Hpf : preferred 0 1 (rate_after a p (S (length (received 0 h)))) (rate_after a p (length (received 0 h))) <->
                  Nat.even (S (length (received 0 h))) = SFltb (smoothed a p) (rate_of p)).
    { unfold preferred, rate_after. rewrite Nat.even_succ, <- Nat.negb_even. destruct (Nat.even (length (received 0 h))); cbn [negb];
        rewrite !ltb_val by auto.
      - case (Rlt_bool_spec (val (rate_of p)) (val (smoothed a p))); case (Rlt_bool_spec (val (smoothed a p)) (val (rate_of p))); intros;
          split; intros; try lra; auto; try discriminate; try solve [intuition congruence].
      - case (Rlt_bool_spec (val (rate_of p)) (val (smoothed a p))); case (Rlt_bool_spec (val (smoothed a p)) (val (rate_of p))); intros;
          split; intros; try lra; auto; try discriminate; try solve [intuition congruence]. }
    split.
    + intros (_ & _ & H). split; auto. destruct (H 1 ltac:(lia) ltac:(lia) H1) as [Hov|Hpr]; [contradiction|].
      unfold P in Hpr. rewrite Hcc in Hpr. now apply Hpf.
    + intros (_ & H). split; auto. split; [apply Hrec; lia|]. intros j Hj Hne _. assert (j = 1) by lia. subst j.
      right. unfold P. rewrite Hcc. now apply Hpf.
  - split; [|intros [H _]; discriminate]. intros (_ & _ & H). exfalso.
    specialize (Ht 0 ltac:(lia) (Hrec 0 ltac:(lia))). unfold P, st in Hti, Ht. cbn [Nat.eqb] in Hti, Ht.
    assert (Hcc : length (received 0 h) = S (length (received 1 h))) by nia.
    destruct (H 0 ltac:(lia) ltac:(lia) H0) as [Hov|Hpr].
    + revert Hov. unfold P. apply not_overdue; auto. left. unfold st. cbn [Nat.eqb]. rewrite Hti, Hcc. nia.
    + unfold P in Hpr. rewrite Hcc in Hpr. unfold preferred in Hpr. destruct (rate_after_val a p (S (length (received 1 h))) Ha Tp) as [Fr _].
      fold a in Hpr. rewrite ltb_val, Rlt_bool_false in Hpr by (auto; lra). destruct Hpr as [Hpr|[_ Hpr]]; [discriminate|lia].
Qed.

(** ** C68: the estimate and the observed rates *)
(** The estimate stays between the smallest and the largest observed rate up to a relative
    error of 2^-50 / alpha, however many messages there are.  Missing: smoothing factors below
    2^-48, and the error estimate. *)
Theorem C68_latest_double_estimate_partial t0 ts cf lo hi :
  let alpha := SF2R radix2 (rate_alpha cf) in
  sensible cf -> (bpow radix2 (-48) <= alpha)%R -> int64 (ns t0) -> (0 < lo)%Z -> (hi <= 2 ^ 64)%Z ->
  intervals lo hi t0 ts -> ts <> [] ->
  exists r, estimate (new_rate dops t0 cf) ts = Ok r /\ number (hz r) /\
    ((1 - bpow radix2 (-50) / alpha) * (1000000000 / IZR hi) <= SF2R radix2 (hz r) <=
     (1 + bpow radix2 (-50) / alpha) * (1000000000 / IZR lo))%R.
Proof.
  intros alpha Hc Hal Ht0 Hlo Hhi HI Hne. pose proof Hc as (Ha & _). apply weight_val in Ha as [_ Va]. fold alpha in Va.
  assert (Hlh : (lo <= hi)%Z) by (destruct ts; [congruence|]; destruct HI as (_ & _ & H & _); lia).
  set (d := (bpow radix2 (-51) / alpha)%R). assert (Hp : (0 < alpha)%R) by (pose proof (bpow_gt_0 radix2 (-48)); lra).
  assert (Had : (alpha * d = bpow radix2 (-51))%R) by (unfold d; field; lra).
  assert (Hd2 : (bpow radix2 (-50) / alpha = 2 * d)%R).
  { unfold d. replace (bpow radix2 (-50)) with (2 * bpow radix2 (-51))%R; [field; lra|].
    change 2%R with (bpow radix2 1). rewrite <- bpow_plus. reflexivity. }
  assert (Hd : (4 * bpow radix2 (-53) <= d <= / 8)%R).
  { replace (4 * bpow radix2 (-53))%R with (bpow radix2 (-51)).
    - split.
      + apply Rmult_le_reg_l with alpha; auto. rewrite Had. pose proof (bpow_gt_0 radix2 (-51)). nra.
      + apply Rmult_le_reg_l with alpha; auto. rewrite Had.
        replace (bpow radix2 (-51)) with (bpow radix2 (-48) * / 8)%R; [lra|]. change (/ 8)%R with (bpow radix2 (-3)). rewrite <- bpow_plus. reflexivity.
    - change 4%R with (bpow radix2 2). rewrite <- bpow_plus. reflexivity. }
  pose proof (bpow_gt_0 radix2 (-53)) as H53.
  destruct (estimate_run lo hi d ts (new_rate dops t0 cf)) as (r & Hr & Rr & Br); auto; try lia.
  - lra.
  - cbn [new_rate conf]. change (val (rate_alpha cf)) with alpha. lra.
  - now apply new_rate_ok.
  - discriminate.
  - congruence.
  - exists r. split; auto. split; [apply number_fin, Rr|].
    assert (Tlo : tick lo) by (unfold tick; lia). assert (Thi : tick hi) by (unfold tick; lia).
    pose proof (sec_rel lo Tlo) as Sl. pose proof (sec_rel hi Thi) as Sh.
    assert (Xl : (1 <= IZR lo)%R) by (apply IZR_le; lia). assert (Xh : (1 <= IZR hi)%R) by (apply IZR_le; lia).
    rewrite Hd2. change (val (hz r)) with (SF2R radix2 (hz r)) in Br.
    set (sl := val (seconds lo)) in *. set (sh := val (seconds hi)) in *.
    change (bpow radix2 (-53)) with (/ 9007199254740992)%R in *. set (u := (/ 9007199254740992)%R) in *.
    assert (Hu : (0 < u <= / 1000000)%R) by (unfold u; lra). clearbody u sl sh d.
    assert (El : (/ sl <= (1 + 2.1 * u) * (1000000000 / IZR lo))%R).
    { set (x := (IZR lo / 1000000000)%R) in *. assert (Hx : (0 < x)%R) by (unfold x; lra).
      replace (1000000000 / IZR lo)%R with (/ x)%R by (unfold x; field; lra).
      apply Rmult_le_reg_r with sl; [nra|]. rewrite Rinv_l by nra.
      apply Rle_trans with ((1 + 2.1 * u) * / x * ((1 - 2.01 * u) * x))%R.
      - replace ((1 + 2.1 * u) * / x * ((1 - 2.01 * u) * x))%R with ((1 + 2.1 * u) * (1 - 2.01 * u))%R by (field; lra). nra.
      - apply Rmult_le_compat_l; [|lra]. apply Rmult_le_pos; [lra|]. left. now apply Rinv_0_lt_compat. }
    assert (Eh : ((1 - 2.1 * u) * (1000000000 / IZR hi) <= / sh)%R).
    { set (x := (IZR hi / 1000000000)%R) in *. assert (Hx : (0 < x)%R) by (unfold x; lra).
      replace (1000000000 / IZR hi)%R with (/ x)%R by (unfold x; field; lra).
      apply Rmult_le_reg_r with sh; [nra|]. rewrite Rinv_l by nra.
      apply Rle_trans with ((1 - 2.1 * u) * / x * ((1 + 2.01 * u) * x))%R.
      - apply Rmult_le_compat_l; [|lra]. apply Rmult_le_pos; [lra|]. left. now apply Rinv_0_lt_compat.
      - replace ((1 - 2.1 * u) * / x * ((1 + 2.01 * u) * x))%R with ((1 - 2.1 * u) * (1 + 2.01 * u))%R by (field; lra). nra. }
    assert (Yl : (0 < 1000000000 / IZR lo)%R) by (apply Rdiv_lt_0_compat; lra).
    assert (Yh : (0 < 1000000000 / IZR hi)%R) by (apply Rdiv_lt_0_compat; lra).
    set (yl := (1000000000 / IZR lo)%R) in *. set (yh := (1000000000 / IZR hi)%R) in *. clearbody yl yh.
    assert (K1 : ((1 + d) * / sl <= (1 + d) * ((1 + 2.1 * u) * yl))%R) by (apply Rmult_le_compat_l; lra).
    assert (K2 : ((1 - d) * ((1 - 2.1 * u) * yh) <= (1 - d) * / sh)%R) by (apply Rmult_le_compat_l; lra).
    assert (K3 : ((1 + d) * (1 + 2.1 * u) <= 1 + 2 * d)%R) by nra.
    assert (K4 : (1 - 2 * d <= (1 - d) * (1 - 2.1 * u))%R) by nra.
    assert (K5 : ((1 + d) * (1 + 2.1 * u) * yl <= (1 + 2 * d) * yl)%R) by (apply Rmult_le_compat_r; lra).
    assert (K6 : ((1 - 2 * d) * yh <= (1 - d) * (1 - 2.1 * u) * yh)%R) by (apply Rmult_le_compat_r; lra).
    lra.
Qed.

(** ** The full C67 is false in doubles, whatever the configuration hypotheses: at 24 frames
    per second (41666667 ns) and with the default configuration the fourth message of input 0
    is not output. *)
Module DEx.
  Definition T z := mkTime z RosClock.
  Definition go n (h : list (op nat double)) := Ex.outs (run dops n default_config (init n) h).
  Definition fps24 : Z := 41666667.
  (** [m] messages of each of two inputs, input 1 following input 0 by 1 ms *)
  Fixpoint both (c m : nat) : list (op nat double) :=
    match m with
    | O => []
    | S m' => Add 0 (10 + c) (T (fps24 * Z.of_nat c)) :: Add 1 (20 + c) (T (1000000 + fps24 * Z.of_nat c)) :: both (S c) m'
    end.
  Definition late : Z := 1000000.
  Definition starts (i : nat) : Z := if Nat.eqb i 0 then 0 else late.

  (** Checking the hypotheses of the theorems on concrete histories *)
  Section Check.
  Variable q : list (op nat double) -> op nat double -> bool.
  Fixpoint eachb (acc h : list (op nat double)) : bool :=
    match h with [] => true | x :: t => q acc x && eachb (acc ++ [x]) t end.
  Lemma eachb_split acc h : eachb acc h = true -> forall h1 x h2, h = h1 ++ x :: h2 -> q (acc ++ h1) x = true.
  Proof.
    revert acc. induction h as [|y h IH]; intros acc H h1 x h2 He; [destruct h1; discriminate|].
    cbn in H. apply andb_true_iff in H as [Hy H]. destruct h1 as [|z h1]; cbn in He; injection He as -> ->.
    - now rewrite app_nil_r.
    - rewrite <- (IH (acc ++ [z]) H h1 x h2 eq_refl). now rewrite <- app_assoc.
  Qed.
  End Check.
  Definition emptyb {A} (l : list A) : bool := match l with [] => true | _ => false end.
  Lemma emptyb_spec {A} (l : list A) : emptyb l = false <-> l <> [].
  Proof. destruct l; cbn; split; congruence. Qed.

  Definition checks n (P start : nat -> Z) (acc : list (op nat double)) (o : op nat double) : bool :=
    match o with
    | SetConfig _ => false
    | Add i _ t =>
        (i <? n) && clock_eqb (clk t) RosClock && (ns t =? start i + P i * Z.of_nat (length (received i acc)))%Z &&
        forallb (fun j => emptyb (received j acc) ||
                   ((start j + P j * (Z.of_nat (length (received j acc)) - 1) <=? ns t)%Z &&
                    (ns t <=? start j + P j * Z.of_nat (length (received j acc)))%Z)) (seq 0 n) &&
        forallb (fun j => negb (emptyb (received j acc))) (seq 0 i)
    end.
  Lemma no_set n P start h : eachb (checks n P start) [] h = true -> forall h1 h2, h = h1 ++ h2 -> last_config h1 = [].
  Proof.
    intros H h1. induction h1 as [|o h1 IH] using rev_ind; intros h2 He; [reflexivity|].
    rewrite <- app_assoc in He. specialize (IH _ He). apply eachb_split with (1 := H) in He. destruct o; [|discriminate].
    unfold last_config. now rewrite fold_left_app.
  Qed.
  Lemma check n P start h : eachb (checks n P start) [] h = true ->
    well_indexed n h /\ started_in_order n h /\ on_schedule n P start RosClock h /\
    forall d, configured n d (fun _ => d) h.
  Proof.
    intros H. pose proof (eachb_split _ [] h H) as Hs. cbn [app] in Hs.
    assert (Ha : forall h1 i e t h2, h = h1 ++ Add i e t :: h2 ->
      i < n /\ clk t = RosClock /\ ns t = (start i + P i * Z.of_nat (length (received i h1)))%Z /\
      (forall j, j < n -> received j h1 <> [] -> (start j + P j * (Z.of_nat (length (received j h1)) - 1) <= ns t <= start j + P j * Z.of_nat (length (received j h1)))%Z) /\
      forall j, j < i -> received j h1 <> []).
    { intros h1 i e t h2 He. specialize (Hs _ _ _ He). cbn [checks] in Hs. rewrite !andb_true_iff in Hs.
      destruct Hs as [[[[H1 H2] H3] H4] H5]. rewrite forallb_forall in H4, H5. split; [now apply Nat.ltb_lt|].
      split; [destruct (clk t); discriminate || reflexivity|]. split; [now apply Z.eqb_eq|]. split.
      - intros j Hj Hr. specialize (H4 j). rewrite in_seq in H4. specialize (H4 ltac:(lia)). apply emptyb_spec in Hr. rewrite Hr in H4.
        cbn [orb] in H4. rewrite andb_true_iff, !Z.leb_le in H4. exact H4.
      - intros j Hj. specialize (H5 j). rewrite in_seq in H5. specialize (H5 ltac:(lia)). apply negb_true_iff in H5. now apply emptyb_spec. }
    split; [|split; [|split]].
    - intros i e t Hin. apply in_split in Hin as (h1 & h2 & He). now apply (Ha h1 i e t h2).
    - intros h1 i j e t h2 He Hj. apply (Ha h1 i e t h2 He). lia.
    - intros h1 i e t h2 He. destruct (Ha h1 i e t h2 He) as (_ & H2 & H3 & H4 & _). auto.
    - intros d h1 j e t h2 He _. rewrite (no_set n P start h H h1 _ He). reflexivity.
  Qed.
End DEx.
Import DEx.

Definition C67_in_doubles : Prop :=
  forall n (P start : nat -> Z) k (h : list (op nat double)) i e t s outs s' x,
  (forall j, j < n -> (0 < P j)%Z) ->
  well_indexed n (h ++ [Add i e t]) -> started_in_order n (h ++ [Add i e t]) ->
  on_schedule n P start k (h ++ [Add i e t]) -> last_config (h ++ [Add i e t]) = [] ->
  run dops n default_config (init n) h = Ok (s, outs) ->
  run dops n default_config (init n) (h ++ [Add i e t]) = Ok (s', outs ++ [x]) ->
  (exists set, x = Published set) <->
  (forall j, j < n -> received j (h ++ [Add i e t]) <> []) /\ received i h <> [] /\
  (forall j, j < n -> 2 <= length (received j (h ++ [Add i e t])) -> (P i < P j)%Z \/ P i = P j /\ i <= j).

Theorem C67_latest_double_periodic_refuted : ~ C67_in_doubles.
Proof.
  intros H.
  destruct (check 2 (fun _ => fps24) starts (both 0 3 ++ [Add 0 13 (T (fps24 * 3))])) as (H1 & H2 & H3 & _); [vm_compute; reflexivity|].
  destruct (run dops 2 default_config (init 2) (both 0 3)) as [[s outs]|] eqn:Hr; [|vm_compute in Hr; discriminate].
  destruct (run dops 2 default_config (init 2) (both 0 3 ++ [Add 0 13 (T (fps24 * 3))])) as [[s' outs']|] eqn:Hr';
    [|vm_compute in Hr'; discriminate].
  specialize (H 2 (fun _ => fps24) starts RosClock (both 0 3) 0 13 (T (fps24 * 3)) s outs s' Quiet).
  assert (Ho : outs' = outs ++ [Quiet]).
  { vm_compute in Hr, Hr'. injection Hr as _ <-. injection Hr' as _ <-. reflexivity. }
  subst outs'. destruct H as [_ H]; auto; [intros; reflexivity|].
  destruct H as [set Hset]; [|discriminate].
  split; [|split; [discriminate|]].
  - intros j Hj. destruct j as [|[|j]]; [vm_compute; discriminate|vm_compute; discriminate|lia].
  - intros j Hj _. right. split; [reflexivity|lia].
Qed.

(** C68 is false to the last bit: with a constant interval of 33 ms the estimate is not the
    observed rate. *)
Theorem C68_latest_double_estimate_refuted :
  ~ (forall t0 ts p, intervals p p t0 ts -> (0 < p)%Z -> ts <> [] ->
     exists r, estimate (new_rate dops t0 default_config) ts = Ok r /\ hz r = rate_of p).
Proof.
  intros H. destruct (H (T 0) [T 33000000; T 66000000] 33000000%Z) as (r & Hr & Hh); [|lia|discriminate|].
  - cbn [intervals]. repeat split; cbn; lia.
  - vm_compute in Hr. injection Hr as <-. vm_compute in Hh. discriminate.
Qed.

(** The run: after the first rounds every other set is lost; with a period of 20 ms none. *)
Example C67_lost_sets :
  go 2 (both 0 8) = Some
    [Quiet; Quiet; Published [11; 20]; Quiet; Published [12; 21]; Quiet; Quiet; Quiet; Published [14; 23]; Quiet;
     Quiet; Quiet; Published [16; 25]; Quiet; Quiet; Quiet].
Proof. vm_compute. reflexivity. Qed.

(** An additional set: at [3 p] the message of input 1, handled first, finds input 0 late by a
    rounding error. *)
Definition third (p : Z) : list (op nat double) :=
  [Add 0 10 (T 0); Add 1 20 (T 0); Add 0 11 (T p); Add 0 12 (T (2 * p)); Add 1 21 (T (3 * p)); Add 0 13 (T (3 * p));
   Add 0 14 (T (4 * p)); Add 0 15 (T (5 * p))].
Definition third_P (p : Z) (i : nat) : Z := match i with O => p | _ => 3 * p end.
Example C67_additional_set :
  eachb (checks 2 (third_P fps24) (fun _ => 0%Z)) [] (third fps24) = true /\
  go 2 (third fps24) = Some [Quiet; Quiet; Published [11; 20]; Published [12; 20]; Published [12; 21]; Published [13; 21];
                             Published [14; 21]; Published [15; 21]] /\
  go 2 (third 20000000) = Some [Quiet; Quiet; Published [11; 20]; Published [12; 20]; Quiet; Published [13; 21];
                             Published [14; 21]; Published [15; 21]].
Proof. split; [|split]; vm_compute; reflexivity. Qed.

(** ** Non-vacuity *)
Example default_sensible : sensible default_config.
Proof. repeat split. Qed.
Example settled_20ms : settled (rate_alpha default_config) 20000000.
Proof. vm_compute. reflexivity. Qed.
Example not_settled_24fps : ~ settled (rate_alpha default_config) fps24.
Proof. unfold settled. vm_compute. discriminate. Qed.
(** The whole numbers of milliseconds up to 100 that are not settled. *)
Example not_settled_ms :
  filter (fun m => negb (SFeqb (smoothed (rate_alpha default_config) (Z.of_nat m * 1000000)) (rate_of (Z.of_nat m * 1000000)))) (seq 1 100)
  = [9; 13; 18; 26; 33; 36; 41; 52; 55; 61; 65; 66; 72; 75; 82; 95; 97].
Proof. vm_compute. reflexivity. Qed.

(** C67 (both theorems): settled inputs at the same instants, and one input at 24 frames per
    second beside a slower one. *)
Example C67_double_nonvacuous_settled :
  eachb (checks 2 (third_P 20000000) (fun _ => 0%Z)) [] (third 20000000) = true /\
  (forall j, settled (rate_alpha default_config) (third_P 20000000 j)).
Proof. split; [vm_compute; reflexivity|]. intros [|j]; vm_compute; reflexivity. Qed.
Definition two_rates : list (op nat double) :=
  [Add 0 10 (T 0); Add 1 20 (T 1000000); Add 0 11 (T fps24); Add 1 21 (T 61000000); Add 0 12 (T (2 * fps24))].
Example C67_double_nonvacuous_distinct :
  let P := fun j : nat => match j with O => fps24 | _ => 60000000%Z end in
  eachb (checks 2 P starts) [] two_rates = true /\ P 0 <> P 1 /\
  (2 * fps24 < starts 1%nat + P 1%nat * Z.of_nat (length (received 1 two_rates)))%Z /\
  go 2 two_rates = Some [Quiet; Quiet; Published [11; 20]; Quiet; Published [12; 21]].
Proof. repeat split; vm_compute; (reflexivity || discriminate). Qed.
Example C67_every_other_nonvacuous :
  eachb (checks 2 (fun _ => fps24) starts) [] (both 0 8) = true /\
  SFltb (smoothed (rate_alpha default_config) fps24) (rate_of fps24) = false.
Proof. split; vm_compute; reflexivity. Qed.

(** C68: readings 20 to 25 ms apart. *)
Example C68_double_nonvacuous :
  intervals 20000000 25000000 (T 0) [T 20000000; T 43000000; T 68000000] /\ sensible default_config /\
  (bpow radix2 (-48) <= SF2R radix2 (rate_alpha default_config))%R.
Proof.
  split; [cbn [intervals]; repeat split; cbn; lia|]. split; [apply default_sensible|].
  apply Rle_trans with (/ 2)%R; [apply (bpow_le radix2 (-48) (-1)); lia|].
  change (rate_alpha default_config) with (S754_finite false 8106479329266893 (-53)). unfold SF2R, F2R. cbn [Fnum Fexp cond_Zopp].
  change (bpow radix2 (-53)) with (/ 9007199254740992)%R. lra.
Qed.

(** C66, C91: a history with a change of configuration; the estimates at its end. *)
Definition C91_h : list (op nat double) :=
  [SetConfig [mkConfig (double_of_Z 1) (double_of_Z 0) (double_of_Z 2)]; Add 0 10 (T 0); Add 1 20 (T 5); Add 0 11 (T 30); Add 0 12 (T 25); Add 0 13 (T 90)].
Example C91_nonvacuous :
  well_indexed 2 C91_h /\ sensible_history C91_h /\ one_clock RosClock C91_h /\
  go 2 C91_h = Some [Quiet; Quiet; Quiet; Published [11; 20]; Quiet; Published [13; 20]].
Proof.
  split; [|split; [split|split]].
  - intros i e t H. cbn in H. intuition (try discriminate); match goal with H : Add _ _ _ = Add _ _ _ |- _ => injection H as <- _ _ end; lia.
  - intros i e t H. cbn in H. intuition (try discriminate); match goal with H : Add _ _ _ = Add _ _ _ |- _ => injection H as _ _ <- end; split; cbn; lia.
  - intros cs cf H Hc. cbn in H. intuition (try discriminate). injection H0 as <-. destruct Hc as [<-|[]]. repeat split.
  - intros i e t H. cbn in H. intuition (try discriminate); match goal with H : Add _ _ _ = Add _ _ _ |- _ => injection H as _ _ <- end; reflexivity.
  - vm_compute. reflexivity.
Qed.

(** Nothing checks the configuration: with a smoothing factor that is not a number the
    comparison by which the inputs are sorted is not an order. *)
Definition nan_config : config double := mkConfig S754_nan (error_alpha default_config) (margin default_config).
Definition nan_h : list (op nat double) :=
  [SetConfig [default_config; nan_config; default_config]; Add 0 1 (T 0); Add 1 2 (T 0); Add 2 3 (T 0);
   Add 0 4 (T 100); Add 1 5 (T 150); Add 2 6 (T 200); Add 1 7 (T 300)].
Theorem C91_latest_nan_config_not_sorted :
  exists s outs, run dops 3 default_config (init 3) nan_h = Ok (s, outs) /\ ~ comparable dops (rates s).
Proof.
  destruct (run dops 3 default_config (init 3) nan_h) as [[s outs]|] eqn:Hr; [|vm_compute in Hr; discriminate].
  exists s, outs. split; auto. intros (_ & _ & H). vm_compute in Hr. injection Hr as Hs _. subst s. cbn [rates] in H.
  match type of H with forall a b c, In a ?l -> _ =>
    specialize (H (nth 0 l (new_rate dops (T 0) default_config)) (nth 1 l (new_rate dops (T 0) default_config))
                  (nth 2 l (new_rate dops (T 0) default_config))) end.
  revert H. vm_compute. intros H. enough (true = false) by discriminate. apply H; auto.
Qed.

Print Assumptions C37_latest_double_clock_test.
Print Assumptions C37_latest_double_stalled_clock_is_quiet.
Print Assumptions C66_latest_double_pivot.
Print Assumptions C67_latest_double_periodic.
Print Assumptions C67_latest_double_periodic_partial.
Print Assumptions C67_latest_double_every_other.
Print Assumptions C67_latest_double_periodic_refuted.
Print Assumptions C68_latest_double_estimate_partial.
Print Assumptions C68_latest_double_estimate_refuted.
Print Assumptions C91_latest_estimates_are_numbers.
Print Assumptions C91_latest_nan_config_not_sorted.
