(** LatestTime with strictly periodic inputs, in binary64 (property C67). *)
From Coq Require Import List Arith ZArith Reals Lra Lia SpecFloat Psatz.
From Flocq Require Import Core.Core IEEE754.BinarySingleNaN Relative Plus_error.
From Verif Require Import Base RclTime Trace Latest_Model Latest_Spec Latest_Proofs Latest_Props
  LatestDouble_Model LatestDouble_Spec LatestDouble_Laws LatestDouble_Bounds LatestDouble_Rate.
From Verif Require Latest_Steady.
Import ListNotations.
Local Open Scope R_scope.
#[local] Existing Instance Hprec.
#[local] Existing Instance Hmax.
#[local] Existing Instance vexp.
#[local] Existing Instance mexp.
Notation on_schedule := Latest_Steady.on_schedule.

(** ** The smoothed rate of a constant period *)
Lemma err x : 0 <= x -> (1 - bpow radix2 (-53)) * x - bpow radix2 (-1022) <= RN x <= (1 + bpow radix2 (-53)) * x + bpow radix2 (-1022).
Proof.
  intros Hx. pose proof (bpow_gt_0 radix2 (-1022)). pose proof (bpow_gt_0 radix2 (-53)).
  destruct (Rle_or_lt (bpow radix2 (-1022)) x) as [Hl|Hl].
  - pose proof (rel x Hl). lra.
  - assert (0 <= RN x <= bpow radix2 (-1022)) by (split; [now apply RN_pos|apply RN_hi; [lia|lra]]).
    assert (bpow radix2 (-53) <= 1) by (apply (bpow_le radix2 (-53) 0); lia). nra.
Qed.

(** The propagation of relative errors [u] and absolute errors [z] through the weighted mean. *)
Lemma mul_up x a b : 0 <= x -> a <= b -> x * a <= x * b.
Proof. intros. now apply Rmult_le_compat_l. Qed.
Lemma mix_rel u e z g w q c i m y :
  0 < u -> u <= / 1000000 -> 0 < e -> 100 * e <= u -> 0 <= z -> z <= e -> z <= e * g -> 0 < g -> 0 <= w <= 1 -> 0 <= c -> 0 <= m -> 0 <= q -> 0 <= i ->
  (1 - u) * g <= i <= (1 + u) * g ->
  (1 - u) * (w * g) - z <= q <= (1 + u) * (w * g) + z ->
  (1 - u) * (1 - w) - z <= c <= (1 + u) * (1 - w) + z ->
  (1 - u) * (c * i) - z <= m <= (1 + u) * (c * i) + z ->
  (1 - u) * (q + m) - z <= y <= (1 + u) * (q + m) + z ->
  (1 - 8 * u) * i <= y <= (1 + 8 * u) * i.
Proof.
  intros U0 U1 E0 E1 Z0 Z1 Z2 G W C0 M0 Q0 I0 Hi Hq Hc Hm Hy.
  assert (Zg : 0 <= z * g <= e * g) by nra. assert (Eg : 100 * (e * g) <= u * g) by nra. assert (Eg0 : 0 <= e * g) by nra.
  assert (Hv : w * g + (1 - w) * g = g) by ring.
  assert (V0 : 0 <= w * g) by nra. assert (V1 : 0 <= (1 - w) * g) by nra.
  set (v := w * g) in *. set (v' := (1 - w) * g) in *.
  assert (Uv' : 0 <= u * v') by nra. assert (Uu : u * (u * v') <= / 1000000 * (u * v')) by nra.
  assert (Ug : 0 <= u * g) by nra. assert (Uug : u * (u * g) <= / 1000000 * (u * g)) by nra.
  assert (Uv : 0 <= u * v) by nra. assert (UG : u * v + u * v' = u * g) by (rewrite <- Hv; ring).
  assert (Ue : 0 <= u * (e * g) <= / 1000000 * (e * g)) by nra.
  assert (Ue2 : 0 <= u * (z * g) <= / 1000000 * (e * g)) by nra.
  (* c * i *)
  assert (Cu : c * i <= (1 + 3 * u) * v' + 2 * (e * g)).
  { apply Rle_trans with (((1 + u) * (1 - w) + z) * ((1 + u) * g)); [apply Rmult_le_compat; lra|].
    replace (((1 + u) * (1 - w) + z) * ((1 + u) * g)) with (v' + 2 * (u * v') + u * (u * v') + z * g + u * (z * g)) by (unfold v'; ring). lra. }
  assert (Cd : (1 - 3 * u) * v' - 2 * (e * g) <= c * i).
  { assert (Ug1 : 0 <= (1 - u) * g) by (apply Rmult_le_pos; lra).
    destruct (Rle_or_lt ((1 - u) * (1 - w) - z) 0) as [Hneg|Hpos].
    - assert (Hx : ((1 - u) * (1 - w) - z) * g <= 0) by nra.
      replace (((1 - u) * (1 - w) - z) * g) with (v' - u * v' - z * g) in Hx by (unfold v'; ring).
      assert (0 <= c * i) by (now apply Rmult_le_pos). lra.
    - apply Rle_trans with (((1 - u) * (1 - w) - z) * ((1 - u) * g)); [|apply Rmult_le_compat; lra].
      replace (((1 - u) * (1 - w) - z) * ((1 - u) * g)) with (v' - 2 * (u * v') + u * (u * v') - z * g + u * (z * g)) by (unfold v'; ring).
      assert (0 <= u * (u * v')) by (apply Rmult_le_pos; lra). lra. }
  set (ci := c * i) in *.
  assert (Uci : u * ci <= u * ((1 + 3 * u) * v' + 2 * (e * g))) by (apply mul_up; lra).
  replace (u * ((1 + 3 * u) * v' + 2 * (e * g))) with (u * v' + 3 * (u * (u * v')) + 2 * (u * (e * g))) in Uci by ring.
  assert (Ci0 : 0 <= ci) by (now apply Rmult_le_pos). assert (Uci0 : 0 <= u * ci) by (apply Rmult_le_pos; lra).
  assert (Mu : m <= v' + 5 * (u * v') + 4 * (e * g)) by lra.
  assert (Md : v' - 5 * (u * v') - 4 * (e * g) <= m) by lra.
  assert (Su : q + m <= g + 5 * (u * g) + 5 * (e * g)) by lra.
  assert (Sd : g - 5 * (u * g) - 5 * (e * g) <= q + m) by lra.
  assert (Us : u * (q + m) <= u * (g + 5 * (u * g) + 5 * (e * g))) by (apply mul_up; lra).
  replace (u * (g + 5 * (u * g) + 5 * (e * g))) with (u * g + 5 * (u * (u * g)) + 5 * (u * (e * g))) in Us by ring.
  assert (Yu : y <= g + 6.2 * (u * g)) by lra.
  assert (Yd : g - 6.2 * (u * g) <= y) by lra.
  assert (Ui : u * ((1 - u) * g) <= u * i <= u * ((1 + u) * g)) by (split; apply mul_up; lra).
  replace (u * ((1 - u) * g)) with (u * g - u * (u * g)) in Ui by ring.
  replace (u * ((1 + u) * g)) with (u * g + u * (u * g)) in Ui by ring. assert (0 <= u * (u * g)) by (apply Rmult_le_pos; lra).
  split; lra.
Qed.

Lemma smoothed_rel a p : fin a -> 0 <= val a <= 1 -> tick p ->
  fin (smoothed a p) /\ (1 - bpow radix2 (-50)) * val (inv p) <= val (smoothed a p) <= (1 + bpow radix2 (-50)) * val (inv p).
Proof.
  intros Fa Va Hp. destruct (inv_val p Hp) as (Fi & Ei & Vi). destruct (sec_val p Hp) as (Fs & _ & Vs).
  destruct (quotient_val a p Fa Va Hp) as (Fq & Eq_ & Vq). destruct (one_minus a Fa Va) as (Fc & Ec & Vc).
  destruct (smooth_ok a p (inv p) Fa Va Hp Fi) as [Fy Vy].
  { pose proof (bpow_gt_0 radix2 (-35)). assert (bpow radix2 30 <= bpow radix2 32) by (apply bpow_le; lia). lra. }
  split; [exact Fy|].
  destruct (mix_bound a 30 (SFdiv prec emax a (seconds p)) (inv p)) as (_ & Ey & _); auto; try lia.
  { pose proof (bpow_gt_0 radix2 (-35)). assert (bpow radix2 30 <= bpow radix2 (30 + 2)) by (apply bpow_le; lia). lra. }
  change (SFadd prec emax (SFdiv prec emax a (seconds p)) (SFmul prec emax (SFsub prec emax (double_of_Z 1) a) (inv p))) with (smoothed a p) in *.
  set (y := val (smoothed a p)) in *. set (i := val (inv p)) in *. set (s := val (seconds p)) in *. set (w := val a) in *.
  set (q := val (SFdiv prec emax a (seconds p))) in *.
  pose proof (bpow_gt_0 radix2 (-30)) as H30. set (g := / s).
  assert (Hg0 : 0 < g) by (apply Rinv_0_lt_compat; lra).
  assert (Hg : bpow radix2 (-35) <= g <= bpow radix2 30).
  { rewrite (bpow_opp radix2 35 : bpow radix2 (-35) = _), (bpow_opp radix2 (-30) : bpow radix2 30 = _). split; apply Rinv_le; lra. }
  unfold Rdiv in Ei, Eq_. rewrite Rmult_1_l in Ei. fold g in Ei, Eq_.
  assert (Hi : (1 - bpow radix2 (-53)) * g <= i <= (1 + bpow radix2 (-53)) * g).
  { rewrite Ei. apply rel. apply Rle_trans with (2 := proj1 Hg). apply bpow_le. lia. }
  assert (Hq : (1 - bpow radix2 (-53)) * (w * g) - bpow radix2 (-1022) <= q <= (1 + bpow radix2 (-53)) * (w * g) + bpow radix2 (-1022)).
  { rewrite Eq_. apply err. nra. }
  assert (Hc : (1 - bpow radix2 (-53)) * (1 - w) - bpow radix2 (-1022) <= RN (1 - w) <= (1 + bpow radix2 (-53)) * (1 - w) + bpow radix2 (-1022)).
  { apply err. lra. }
  set (c := RN (1 - w)) in *. assert (Hc0 : 0 <= c) by (apply RN_pos; lra).
  pose proof (bpow_gt_0 radix2 (-35)) as H35.
  assert (Hm : (1 - bpow radix2 (-53)) * (c * i) - bpow radix2 (-1022) <= RN (c * i) <= (1 + bpow radix2 (-53)) * (c * i) + bpow radix2 (-1022)).
  { apply err. nra. }
  set (m := RN (c * i)) in *. assert (Hm0 : 0 <= m) by (apply RN_pos; nra).
  assert (Hy : (1 - bpow radix2 (-53)) * (q + m) - bpow radix2 (-1022) <= y <= (1 + bpow radix2 (-53)) * (q + m) + bpow radix2 (-1022)).
  { rewrite Ey. apply err. lra. }
  assert (Hq0 : 0 <= q) by lra.
  assert (E1022 : bpow radix2 (-1022) <= bpow radix2 (-60) * g).
  { apply Rle_trans with (bpow radix2 (-60) * bpow radix2 (-35)); [|pose proof (bpow_gt_0 radix2 (-60)); nra].
    rewrite <- bpow_plus. apply bpow_le. lia. }
  assert (G30 : g <= 1073741824) by (change (bpow radix2 30) with 1073741824 in Hg; lra).
  assert (E1022' : bpow radix2 (-1022) <= bpow radix2 (-100)) by (apply bpow_le; lia).
  pose proof (bpow_gt_0 radix2 (-1022)) as E0.
  assert (E50 : bpow radix2 (-50) = 8 * / 9007199254740992).
  { change 8 with (bpow radix2 3). change (/ 9007199254740992) with (bpow radix2 (-53)). rewrite <- bpow_plus. reflexivity. }
  rewrite E50. change (bpow radix2 (-53)) with (/ 9007199254740992) in *.
  change (bpow radix2 (-60)) with (/ 1152921504606846976) in *.
  change (bpow radix2 (-100)) with (/ 1267650600228229401496703205376) in *.
  set (z := bpow radix2 (-1022)) in *.
  clear Ei Eq_ Ec Ey Vy Fy Fi Fs Fq Fc Vq Vs Vc Vi H30 H35 Hg Hp Fa. clearbody z c m q w g i y s.
  apply (mix_rel (/ 9007199254740992) (/ 1152921504606846976) z g w q c i m y); lra.
Qed.

Lemma smoothed_val a p : fin a -> 0 <= val a <= 1 -> tick p ->
  fin (smoothed a p) /\ 0 < val (smoothed a p) <= bpow radix2 32.
Proof.
  intros Fa Va Hp. destruct (smoothed_rel a p Fa Va Hp) as [H1 H2]. pose proof (inv_pos p Hp). destruct (inv_val p Hp) as (_ & _ & H3).
  change (bpow radix2 (-50)) with (/ 1125899906842624) in H2. change (bpow radix2 30) with 1073741824 in H3.
  change (bpow radix2 32) with 4294967296. split; auto. lra.
Qed.
Lemma rate_after_val a p c : weight a -> tick p -> fin (rate_after a p c) /\ 0 < val (rate_after a p c) <= bpow radix2 32.
Proof.
  intros Ha Hp. apply weight_val in Ha as [Fa Va]. unfold rate_after. destruct (Nat.even c); [|now apply smoothed_val].
  destruct (inv_val p Hp) as (H1 & _ & H2). split; auto. pose proof (inv_pos p Hp).
  assert (bpow radix2 30 <= bpow radix2 32) by (apply bpow_le; lia). lra.
Qed.

Lemma classic_overdue a p c z : overdue a p c z \/ ~ overdue a p c z.
Proof. unfold overdue. destruct (Z_lt_dec 0 z), (SFltb (rate_of z) (rate_after a p c)); intuition congruence. Qed.

(** ** Runs *)
Section Steady.
Context {E : Type} (n : nat) (dflt : config double).
Notation run := (run (E := E) dops n dflt).
Notation init := (init (E := E) (D := double) n).
Notation op := (op E double).
Variable P : nat -> Z.
Variable start : nat -> Z.
Variable k : clock.
Variable cf : nat -> config double.
Notation count j h := (length (received (E := E) (D := double) j h)).
Notation alpha j := (rate_alpha (cf j)).

Hypothesis Ppos : forall j, (j < n)%nat -> tick (P j).
Hypothesis Cok : forall j, (j < n)%nat -> sensible (cf j).

Notation configured := (configured n dflt cf).

Definition slot (j c : nat) (r : rate double) : Prop :=
  prev r = mkTime (start j + P j * (Z.of_nat c - 1)) k /\ conf r = cf j /\
  (c = 1%nat -> hz r = S754_zero false /\ do_hz_init r = true /\ do_error_init r = true) /\
  ((2 <= c)%nat -> do_hz_init r = false /\ hz r = rate_after (alpha j) (P j) c /\
     (do_error_init r = true -> Nat.even c = true) /\
     (do_error_init r = false -> fin (error r) /\ val (error r) = 0 /\ (Nat.even c = true -> settled (alpha j) (P j)))).

(** Smoothing a settled error: zero stays zero. *)
Lemma zero_error b x y : fin b -> 0 <= val b <= 1 -> fin x -> val x = 0 -> fin y -> val y = 0 ->
  let z := SFadd prec emax (SFmul prec emax b x) (SFmul prec emax (SFsub prec emax (double_of_Z 1) b) y) in
  fin z /\ val z = 0.
Proof.
  intros Fb Vb Fx Vx Fy Vy. destruct (one_minus b Fb Vb) as (Fc & _ & _).
  assert (R0 : in_range 0) by (unfold in_range; rewrite RN_0, Rabs_R0; apply bpow_gt_0).
  destruct (mul_val b x) as [F1 V1]; auto; [rewrite Vx, Rmult_0_r; auto|].
  destruct (mul_val _ y Fc Fy) as [F2 V2]; [rewrite Vy, Rmult_0_r; auto|].
  rewrite Vx, Rmult_0_r, RN_0 in V1. rewrite Vy, Rmult_0_r, RN_0 in V2.
  destruct (add_val _ _ F1 F2) as [F3 V3]; [rewrite V1, V2, Rplus_0_r; auto|].
  cbv zeta. split; auto. rewrite V3, V1, V2, Rplus_0_r. apply RN_0.
Qed.

Lemma slot_step j c r t : (j < n)%nat -> (1 <= c)%nat -> slot j c r -> t = mkTime (start j + P j * Z.of_nat c) k ->
  exists r', compute_hz dops t r = Ok (r', true) /\ slot j (S c) r'.
Proof.
  intros Hj Hc (Hp & Hcf & H1 & H2) ->. pose proof (Ppos j Hj) as HP. pose proof (Cok j Hj) as (Ha & Hb & Hm).
  pose proof Ha as Ha0. apply weight_val in Ha as [Fa Va]. apply weight_val in Hb as [Fb Vb]. apply factor_val in Hm as [Fm Vm].
  destruct (inv_val (P j) HP) as (Fi & _ & Vi0). pose proof (inv_pos (P j) HP) as Vi.
  assert (Vi32 : 0 <= val (inv (P j)) <= bpow radix2 32).
  { assert (bpow radix2 30 <= bpow radix2 32) by (apply bpow_le; lia). lra. }
  destruct (smoothed_val (alpha j) (P j) Fa Va HP) as [Fs Vs].
  unfold compute_hz. cbn [hz_loop]. unfold time_sub. rewrite Hp. cbn [clk ns].
  destruct (clock_eqb_spec k k) as [_|]; [|congruence].
  replace (start j + P j * Z.of_nat c - (start j + P j * (Z.of_nat c - 1)))%Z with (P j) by lia.
  rewrite double_sign. destruct (Z.leb_spec (P j) 0); [unfold tick in HP; lia|].
  cbn [fdiv fone fsecs fabs fsub fgt fmul fadd dops]. fold (inv (P j)). rewrite Hcf.
  destruct (Nat.eq_dec c 1) as [->|Hc1].
  - destruct (H1 eq_refl) as (Hh & Hd & He). rewrite Hd, He. eexists; split; [reflexivity|].
    split; [cbn [prev]; f_equal; lia|]. split; [reflexivity|]. split; [discriminate|]. intros _. cbn. repeat split; auto; discriminate.
  - destruct (H2 ltac:(lia)) as (Hd & Hh & He & He'). rewrite Hd.
    assert (Hprev : mkTime (start j + P j * Z.of_nat c) k = mkTime (start j + P j * (Z.of_nat (S c) - 1)) k) by (f_equal; lia).
    assert (Hev : Nat.even (S c) = negb (Nat.even c)) by (rewrite Nat.even_succ, <- Nat.negb_even; reflexivity).
    (* smoothing the rate of the period, with no error so far *)
    assert (Zi : let d := SFabs (SFsub prec emax (inv (P j)) (inv (P j))) in fin d /\ val d = 0).
    { destruct (delta_ok (inv (P j)) (P j) HP Fi Vi32) as (F1 & V1 & _). cbv zeta. split; auto. rewrite V1.
      unfold Rminus. rewrite Rplus_opp_r, RN_0. apply Rabs_R0. }
    destruct Zi as [Fd0 Vd0].
    destruct (do_error_init r) eqn:Hei.
    + specialize (He eq_refl). unfold rate_after in Hh. rewrite He in Hh. rewrite Hh.
      eexists; split; [reflexivity|]. split; [exact Hprev|]. split; [reflexivity|]. split; [lia|]. intros _. cbn [do_hz_init hz do_error_init error].
      split; auto. split; [unfold rate_after; rewrite Hev, He; reflexivity|]. split; [discriminate|]. intros _. split; auto. split; auto.
      rewrite Hev, He. discriminate.
    + destruct (He' eq_refl) as (Fe & Ve & Hset).
      assert (Fz : fin (SFmul prec emax (margin (cf j)) (error r)) /\ val (SFmul prec emax (margin (cf j)) (error r)) = 0).
      { destruct (mul_val (margin (cf j)) (error r)) as [F1 V1]; auto; rewrite Ve, Rmult_0_r in *.
        - unfold in_range; rewrite RN_0, Rabs_R0; apply bpow_gt_0.
        - split; auto. rewrite V1. apply RN_0. }
      destruct Fz as [Fz Vz].
      assert (Hd32 : 0 <= val (hz r) <= bpow radix2 32 /\ fin (hz r)).
      { rewrite Hh. destruct (rate_after_val (alpha j) (P j) c Ha0 HP) as [F1 V1]. split; auto. lra. }
      destruct Hd32 as [Vh Fh]. destruct (delta_ok (hz r) (P j) HP Fh Vh) as (Fd & Vd & _).
      rewrite ltb_val, Vz by auto.
      destruct (Rlt_bool_spec 0 (val (SFabs (SFsub prec emax (hz r) (inv (P j)))))) as [Hlt|Hle].
      * (* a step change is detected: the estimate starts anew *)
        assert (Hodd : Nat.even c = false).
        { destruct (Nat.even c) eqn:Hce; auto. exfalso. rewrite Hh in Vd, Hlt. unfold rate_after in Vd, Hlt. rewrite Hce in Vd, Hlt.
          rewrite Vd0 in Hlt. lra. }
        cbn [prev do_hz_init hz error conf do_error_init clk ns].
        destruct (clock_eqb_spec k k) as [_|]; [|congruence].
        replace (start j + P j * Z.of_nat c - (start j + P j * (Z.of_nat c - 1)))%Z with (P j) by lia.
        pose proof (double_sign (P j)) as Hsg. cbn [fle fsecs fzero dops] in Hsg. cbn [fle fsecs fzero dops]. rewrite Hsg.
        destruct (Z.leb_spec (P j) 0); [lia|].
        eexists; split; [reflexivity|]. split; [exact Hprev|]. split; [reflexivity|]. split; [lia|]. intros _. cbn [do_hz_init hz do_error_init error].
        split; auto. split; [unfold rate_after; rewrite Hev, Hodd; reflexivity|]. split; [rewrite Hev, Hodd; auto|discriminate].
      * (* no change: the estimate is the rate of the period, and settled *)
        assert (Hz0 : val (hz r) = val (inv (P j))).
        { apply diff_zero; auto. rewrite Vd in Hle. pose proof (Rabs_pos (RN (val (hz r) - val (inv (P j))))).
          destruct (Req_dec (RN (val (hz r) - val (inv (P j)))) 0); auto. apply Rabs_pos_lt in H3. lra. }
        assert (Hzi : hz r = inv (P j)) by (apply val_inj; auto; lra).
        assert (Hset' : settled (alpha j) (P j)).
        { destruct (Nat.even c) eqn:Hce; [auto|]. unfold settled. rewrite <- Hzi, Hh. unfold rate_after. now rewrite Hce. }
        rewrite Hzi in *. destruct (zero_error (error_alpha (cf j)) _ (error r) Fb Vb Fd0 Vd0 Fe Ve) as [Fn Vn].
        eexists; split; [reflexivity|]. split; [exact Hprev|]. split; [reflexivity|]. split; [lia|]. intros _. cbn [do_hz_init hz do_error_init error].
        split; auto. split.
        { change (smoothed (alpha j) (P j) = rate_after (alpha j) (P j) (S c)). unfold rate_after. destruct (Nat.even (S c)); auto. }
        split; [discriminate|]. intros _. split; auto.
Qed.

Lemma configured_snoc (h : list op) o : configured (h ++ [o]) -> configured h /\
  (forall i e t, o = Add i e t -> received i h = [] -> expected_config n dflt (last_config h) i = cf i).
Proof.
  intros H. split.
  - intros h1 j e t h2 ->. apply (H h1 j e t (h2 ++ [o])). now rewrite <- app_assoc.
  - intros i e t ->. apply (H h i e t []); auto.
Qed.

Open Scope nat_scope.
Lemma slots h s outs :
  well_indexed n h -> started_in_order n h -> on_schedule n P start k h -> configured h -> run init h = Ok (s, outs) ->
  forall j, j < n -> received j h <> [] -> exists r, nth_error (rates s) j = Some r /\ slot j (count j h) r.
Proof.
  revert s outs. induction h as [|o h IH] using rev_ind; intros s outs HW HO HS HC Hr j Hj Hrec; [cbn in Hrec; congruence|].
  apply well_indexed_snoc in HW as [HW Ho]. pose proof HO as HO0. apply in_order_snoc in HO as [HO _].
  apply Latest_Steady.on_schedule_snoc in HS as [HS Hs0]. apply configured_snoc in HC as [HC Hc0].
  rewrite run_snoc in Hr. destruct (run init h) as [[s1 o1]|] eqn:Hrh; [|discriminate]. cbn [bind] in Hr.
  specialize (IH s1 o1 HW HO HS HC eq_refl). destruct (run_inv dops n dflt h s1 o1 HW Hrh) as [HI _].
  destruct (step dops n dflt s1 o) as [[s2 o2]|] eqn:Hs; [|discriminate]. cbn in Hr. injection Hr as <- <-.
  destruct o as [i e t|cs]; cbn [step] in Hs.
  - specialize (Ho i e t eq_refl). destruct (Hs0 i e t eq_refl) as (Hk & Ht & _). rewrite received_add in *.
    assert (Etime : t = mkTime (start i + P i * Z.of_nat (count i h)) k) by (destruct t; cbn in *; congruence).
    destruct (add_cases dops n dflt h s1 i e t HI Ho) as [(Hi0 & Hs')|[(_ & _ & Hs')|(Hi1 & Hlt & r & r' & b & x & Hn & Hc & Hs' & _)]];
      rewrite Hs' in Hs; [|discriminate|]; injection Hs as <- <-; cbn [rates].
    + pose proof (in_order_first n h i e t HO0 Ho Hi0) as Hst. rewrite <- (inv_rates _ _ _ HI) in Hst.
      destruct (Nat.eqb_spec i j) as [->|Hne].
      * rewrite nth_error_app2, Hst, Nat.sub_diag by lia. eexists; split; [reflexivity|]. rewrite Hi0.
        split; [|split; [|split]].
        -- cbn [prev new_rate]. rewrite Etime. rewrite Hi0. f_equal; cbn; lia.
        -- cbn [conf new_rate]. rewrite config_for_expected by lia. rewrite (run_configs dops n dflt h s1 o1 Hrh). now apply (Hc0 j e t).
        -- cbn. auto.
        -- cbn. lia.
      * rewrite app_nil_r in *. destruct (IH j Hj Hrec) as (r & Hr & Hsl). exists r. split; auto.
        rewrite nth_error_app1; auto. apply nth_error_Some. congruence.
    + destruct (IH i Ho Hi1) as (r0 & Hr0 & Hsl). rewrite Hn in Hr0. injection Hr0 as <-.
      destruct (slot_step i (count i h) r t Ho) as (r1 & Hc1 & Hsl1); auto.
      { destruct (received i h); [congruence|cbn; lia]. }
      rewrite Hc in Hc1. injection Hc1 as <- ->.
      assert (Hlen : i < length (rates s1)) by (apply nth_error_Some; congruence).
      destruct (Nat.eqb_spec i j) as [->|Hne].
      * exists r'. split.
        -- rewrite (nth_error_nth' _ r') by (now rewrite upd_length). now rewrite nth_upd_eq.
        -- rewrite app_length. cbn. now rewrite Nat.add_1_r.
      * rewrite app_nil_r in *. destruct (IH j Hj Hrec) as (r0 & Hr & Hsl0). exists r0. split; auto.
        rewrite (nth_error_nth' _ r0).
        -- rewrite nth_upd_neq by auto. f_equal. now apply nth_error_nth.
        -- rewrite upd_length. apply nth_error_Some. congruence.
  - injection Hs as <- <-. rewrite received_set in *. auto.
Qed.

Lemma slot_ok j c r : j < n -> 1 <= c -> slot j c r -> fin (hz r) /\ (c = 1 -> hz r = S754_zero false) /\
  (2 <= c -> hz r = rate_after (alpha j) (P j) c).
Proof.
  intros Hj Hc (_ & _ & H1 & H2). destruct (Nat.eq_dec c 1) as [Hc1|Hc1].
  - destruct (H1 Hc1) as (-> & _). split; [apply zero_fin|]. split; [auto|lia].
  - destruct (H2 ltac:(lia)) as (_ & -> & _). split; [|split; [congruence|auto]].
    apply rate_after_val; [apply (Cok j Hj)|apply (Ppos j Hj)].
Qed.

Lemma slot_eligible j c r t : j < n -> 1 <= c -> slot j c r -> clk t = k ->
  (start j + P j * (Z.of_nat c - 1) <= ns t <= start j + P j * Z.of_nat c)%Z ->
  (eligible dops t r <-> 2 <= c /\ ~ overdue (alpha j) (P j) c (ns t - (start j + P j * (Z.of_nat c - 1)))).
Proof.
  intros Hj Hc Hsl Hk Ht. pose proof (Ppos j Hj) as HP. pose proof (Cok j Hj) as (Ha & _ & Hm). apply factor_val in Hm as [Fm Vm].
  pose proof Hsl as (Hp & Hcf & H1 & H2).
  destruct (slot_ok j c r Hj Hc Hsl) as (Fh & Hh1 & Hh2).
  set (z := (ns t - (start j + P j * (Z.of_nat c - 1)))%Z).
  assert (Hsub : time_sub t (prev r) = Ok z).
  { unfold time_sub. rewrite Hp. cbn [clk ns]. rewrite Hk. destruct (clock_eqb_spec k k) as [_|]; [reflexivity|congruence]. }
  destruct (Nat.eq_dec c 1) as [Hc1|Hc1].
  { split; [|lia]. intros (d & _ & Hg & _). rewrite (Hh1 Hc1) in Hg. discriminate. }
  assert (Hc2 : 2 <= c) by lia. specialize (Hh2 Hc2). destruct (H2 Hc2) as (_ & _ & He & He'). clear Hh1 H1 H2.
  destruct (rate_after_val (alpha j) (P j) c Ha HP) as [Fr Vr].
  assert (Hpos : fgt dops (hz r) (fzero dops) = true).
  { rewrite Hh2. cbn [fgt fzero dops]. rewrite ltb_val by (auto using zero_fin). apply Rlt_bool_true. cbn. lra. }
  assert (Hz : (0 <= z <= P j)%Z) by (unfold z; lia).
  destruct (Z.eq_dec z 0) as [Hz0|Hz0].
  { split.
    - intros _. split; auto. intros [Hov _]. lia.
    - intros _. exists z. split; auto. split; auto. left. rewrite double_zero. now apply Z.eqb_eq. }
  assert (Tz : tick z) by (unfold tick in *; lia). destruct (inv_val z Tz) as (Fz & _ & Vz). pose proof (inv_antitone z (P j) Tz HP ltac:(lia)) as Hanti.
  (* late or not, compared in doubles *)
  assert (Hlate : do_error_init r = false ->
    fgt dops (fsub dops (hz r) (fdiv dops (fone dops) (fsecs dops z))) (fmul dops (margin (conf r)) (error r)) = SFltb (inv z) (hz r)).
  { intros Hei. destruct (He' Hei) as (Fe & Ve & _). cbn [fgt fsub fdiv fone fsecs fmul dops]. fold (inv z).
    rewrite Hcf. assert (Fmz : fin (SFmul prec emax (margin (cf j)) (error r)) /\ val (SFmul prec emax (margin (cf j)) (error r)) = 0%R).
    { destruct (mul_val (margin (cf j)) (error r)) as [F1 V1]; auto; rewrite Ve, Rmult_0_r in *.
      - unfold in_range; rewrite RN_0, Rabs_R0; apply bpow_gt_0.
      - split; auto. rewrite V1. apply RN_0. }
    destruct Fmz as [Fmz Vmz]. rewrite <- Hh2 in Vr.
    destruct (sub_val (hz r) (inv z)) as [F1 V1]; auto.
    { pose proof (bpow_gt_0 radix2 (-35)). assert (bpow radix2 30 <= bpow radix2 32)%R by (apply bpow_le; lia).
      unfold in_range. apply Rle_lt_trans with (bpow radix2 32); [|apply bpow_lt; lia]. apply Rabs_le. split.
      - rewrite <- (RN_bpow 32) by lia. rewrite <- round_NE_opp. apply RN_le. lra.
      - apply RN_hi; [lia|lra]. }
    rewrite !ltb_val, V1, Vmz by auto.
    destruct (Rlt_bool_spec (val (inv z)) (val (hz r))) as [Hl|Hl]; [apply Rlt_bool_true|apply Rlt_bool_false].
    - now apply diff_pos.
    - rewrite <- RN_0. apply RN_le. lra. }
  assert (Heven : Nat.even c = true -> SFltb (inv z) (hz r) = false).
  { intros Hev. rewrite Hh2. unfold rate_after. rewrite Hev. rewrite ltb_val by (auto; apply (inv_val (P j) HP)). apply Rlt_bool_false. lra. }
  split.
  - intros (d & Hd & _ & Hor). rewrite Hsub in Hd. injection Hd as <-. split; auto. intros [_ Hov]. rewrite <- Hh2 in Hov.
    destruct Hor as [Hor|[Hor|Hor]].
    + rewrite double_zero in Hor. apply Z.eqb_eq in Hor. lia.
    + rewrite (Heven (He Hor)) in Hov. discriminate.
    + destruct (do_error_init r) eqn:Hei; [rewrite (Heven (He eq_refl)) in Hov; discriminate|].
      rewrite (Hlate eq_refl) in Hor. rewrite Hor in Hov. discriminate.
  - intros (_ & Hno). exists z. split; auto. split; auto. destruct (do_error_init r) eqn:Hei; auto. right. right.
    rewrite (Hlate eq_refl). destruct (SFltb (inv z) (hz r)) eqn:Hl; auto. exfalso. apply Hno. split; [lia|]. now rewrite <- Hh2.
Qed.

(** Which messages trigger an output. *)
Lemma steady h i e t s outs s' x :
  well_indexed n (h ++ [Add i e t]) -> started_in_order n (h ++ [Add i e t]) -> on_schedule n P start k (h ++ [Add i e t]) ->
  configured (h ++ [Add i e t]) ->
  run init h = Ok (s, outs) -> run init (h ++ [Add i e t]) = Ok (s', outs ++ [x]) ->
  (exists set, x = Published set) <->
  (forall j, j < n -> received j (h ++ [Add i e t]) <> []) /\ received i h <> [] /\
  (forall j, j < n -> j <> i -> 2 <= count j h ->
     overdue (alpha j) (P j) (count j h) (ns t - (start j + P j * (Z.of_nat (count j h) - 1))) \/
     preferred i j (rate_after (alpha i) (P i) (S (count i h))) (rate_after (alpha j) (P j) (count j h))).
Proof.
  intros HW HO HS HC Hr Hr'. assert (HW0 := HW). assert (HS0 := HS). assert (HO0 := HO). assert (HC0 := HC).
  apply well_indexed_snoc in HW as [HW Hi]. specialize (Hi i e t eq_refl).
  apply in_order_snoc in HO as [HO _]. apply Latest_Steady.on_schedule_snoc in HS as [HS Ht]. destruct (Ht i e t eq_refl) as (Hk & Hti & Hj).
  apply configured_snoc in HC as [HC _].
  destruct (run_inv dops n dflt h s outs HW Hr) as [HI _]. destruct (run_inv dops n dflt _ s' _ HW0 Hr') as [HI' _].
  assert (Hd : received i h = [] \/ received i h <> []) by (destruct (received i h); [auto|right; discriminate]).
  destruct Hd as [Hrec|Hrec'].
  { split; [|intros (_ & H & _); congruence]. intros (set & ->). exfalso.
    rewrite run_snoc, Hr in Hr'. cbn [bind step] in Hr'.
    destruct (add_cases dops n dflt h s i e t HI Hi) as [(_ & Hs)|[(H & _)|(H & _)]]; [|congruence|congruence].
    rewrite Hs in Hr'. cbn in Hr'. injection Hr' as _ Hx. apply app_inj_tail in Hx as [_ Hx]. discriminate. }
  destruct (slots h s outs HW HO HS HC Hr i Hi Hrec') as (r & Hn & Hsl).
  assert (HSl : forall j r, nth_error (rates s') j = Some r -> j < n /\ received j (h ++ [Add i e t]) <> [] /\ slot j (count j (h ++ [Add i e t])) r).
  { intros j r0 Hn0. assert (Hlt : j < started n (h ++ [Add i e t])).
    { rewrite <- (inv_rates _ _ _ HI'). apply nth_error_Some. congruence. }
    assert (Hjn : j < n) by (pose proof (started_le n (h ++ [Add i e t])); lia).
    assert (Hrj : received j (h ++ [Add i e t]) <> []) by (now apply (Latest_Steady.started_received n)).
    destruct (slots _ s' _ HW0 HO0 HS0 HC0 Hr' j Hjn Hrj) as (r1 & Hn1 & Hs1). rewrite Hn0 in Hn1. injection Hn1 as <-. auto. }
  assert (Hcnt : forall j, received j (h ++ [Add i e t]) <> [] -> 1 <= count j (h ++ [Add i e t])).
  { intros j H. destruct (received j (h ++ [Add i e t])); [congruence|cbn; lia]. }
  assert (Hfin : forall r, In r (rates s') -> fin (hz r)).
  { intros r0 Hin. apply In_nth_error in Hin as [j Hn0]. destruct (HSl j r0 Hn0) as (Hjn & Hrj & Hsl0).
    apply (slot_ok j _ r0 Hjn (Hcnt j Hrj) Hsl0). }
  assert (Hcmp : comparable dops (rates s')).
  { assert (G : forall a b, In a (rates s') -> In b (rates s') -> fgt dops (hz a) (hz b) = Rlt_bool (val (hz b)) (val (hz a))).
    { intros a b Ha Hb. cbn [fgt dops]. apply ltb_val; auto. }
    split; [|split].
    - intros a Ha. rewrite G by auto. apply Rlt_bool_false. lra.
    - intros a b c Ha Hb Hc. rewrite !G by auto. intros H1 H2. apply Rlt_bool_true.
      revert H1 H2. case Rlt_bool_spec; [|discriminate]. intros H1 _. case Rlt_bool_spec; [|discriminate]. intros H2 _. lra.
    - intros a b c Ha Hb Hc. rewrite !G by auto. intros H1 H2. apply Rlt_bool_false.
      revert H1 H2. case Rlt_bool_spec; [discriminate|]. intros H1 _. case Rlt_bool_spec; [discriminate|]. intros H2 _. lra. }
  rewrite (C66_latest_pivot dops n dflt k h i e t s outs s' x r HW0 (Latest_Steady.schedule_clock _ _ _ _ _ HS0) Hr Hrec' Hn Hr' Hcmp).
  assert (Hprev : fle dops (fsecs dops (ns t - ns (prev r))) (fzero dops) = false).
  { destruct Hsl as (-> & _). cbn [ns]. rewrite double_sign, Hti. apply Z.leb_gt. pose proof (Ppos i Hi). unfold tick in *. lia. }
  assert (Hcj : forall j, j <> i -> received j (h ++ [Add i e t]) = received j h).
  { intros j Hne. rewrite received_add. destruct (Nat.eqb_spec i j); [congruence|]. apply app_nil_r. }
  assert (Hci : count i (h ++ [Add i e t]) = S (count i h)).
  { rewrite received_add, Nat.eqb_refl, app_length. cbn. lia. }
  assert (Hci2 : 1 <= count i h) by (destruct (received i h); [congruence|cbn; lia]).
  assert (Hni : exists ri, nth_error (rates s') i = Some ri /\ hz ri = rate_after (alpha i) (P i) (S (count i h)) /\ eligible dops t ri).
  { assert (Hri : received i (h ++ [Add i e t]) <> []) by (intros H; rewrite H in Hci; discriminate).
    destruct (slots _ s' _ HW0 HO0 HS0 HC0 Hr' i Hi Hri) as (ri & Hn1 & Hs1). rewrite Hci in Hs1. exists ri. split; auto.
    destruct (slot_ok i (S (count i h)) ri Hi ltac:(lia) Hs1) as (_ & _ & H2). split; [apply H2; lia|].
    apply (slot_eligible i (S (count i h))); auto; try lia.
    - rewrite Hti. pose proof (Ppos i Hi). unfold tick in *. nia.
    - split; [lia|]. intros [Hz _]. rewrite Hti in Hz. nia. }
  destruct Hni as (ri & Hni & Hhi & Hei).
  split.
  - intros (_ & Hall & (ri' & Hni' & _ & HF)). rewrite Hni in Hni'. injection Hni' as <-. split; auto. split; auto.
    intros j Hjn Hne Hc2. assert (Hrj : received j h <> []) by (intros H; rewrite H in Hc2; cbn in Hc2; lia).
    assert (Hrj' : received j (h ++ [Add i e t]) <> []) by (now rewrite Hcj).
    destruct (slots _ s' _ HW0 HO0 HS0 HC0 Hr' j Hjn Hrj') as (rj & Hnj & Hsj). rewrite (Hcj j Hne) in Hsj.
    destruct (slot_ok j (count j h) rj Hjn ltac:(lia) Hsj) as (Fj & _ & Hhj). specialize (Hhj Hc2).
    pose proof (slot_eligible j (count j h) rj t Hjn ltac:(lia) Hsj Hk (Hj j Hjn Hrj)) as HE.
    destruct (classic_overdue (alpha j) (P j) (count j h) (ns t - (start j + P j * (Z.of_nat (count j h) - 1)))) as [Hov|Hov]; [auto|].
    right. destruct (HF j rj Hnj (proj2 HE (conj Hc2 Hov))) as [H1 H2]. rewrite Hhi, Hhj in *. cbn [fgt dops] in H1, H2.
    destruct (SFltb (rate_after (alpha j) (P j) (count j h)) (rate_after (alpha i) (P i) (S (count i h)))) eqn:Hlt; [left; auto|].
    right. split; auto. destruct (le_lt_dec j i) as [Hle|]; auto. assert (Hji : j < i) by lia. specialize (H2 Hji). congruence.
  - intros (Hall & _ & Hmin). split; auto. split; auto. exists ri. split; auto. split; auto.
    intros j rj Hnj Hej. destruct (HSl j rj Hnj) as (Hjn & Hrj & Hsj).
    destruct (Nat.eq_dec j i) as [->|Hne].
    { rewrite Hni in Hnj. injection Hnj as <-. split; [|lia]. apply Hcmp. now apply nth_error_In in Hni. }
    rewrite (Hcj j Hne) in Hsj, Hrj. assert (Hc1 : 1 <= count j h) by (destruct (received j h); [congruence|cbn; lia]).
    apply (slot_eligible j (count j h) rj t Hjn Hc1 Hsj Hk (Hj j Hjn Hrj)) in Hej as [Hc2 Hov].
    destruct (slot_ok j (count j h) rj Hjn ltac:(lia) Hsj) as (Fj & _ & Hhj). specialize (Hhj Hc2).
    destruct (Hmin j Hjn Hne Hc2) as [Hov'|Hp]; [contradiction|].
    cbn [fgt dops]. rewrite Hhi, Hhj.
    assert (Fi : fin (rate_after (alpha i) (P i) (S (count i h)))) by (rewrite <- Hhi; apply Hfin; now apply nth_error_In in Hni).
    rewrite Hhj in Fj. destruct Hp as [Hp|[Hp Hij]].
    + split; auto. rewrite ltb_val in * by auto. revert Hp. case Rlt_bool_spec; [|discriminate]. intros H _. apply Rlt_bool_false. lra.
    + split; auto. lia.
Qed.
End Steady.
