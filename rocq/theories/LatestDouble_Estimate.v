(** The rate estimate of LatestTime in binary64 stays within the observed rates, up to a
    rounding error that does not accumulate (property C68). *)
From Coq Require Import List Arith ZArith Reals Lra Lia SpecFloat Psatz.
From Flocq Require Import Core.Core IEEE754.BinarySingleNaN Relative Plus_error.
From Verif Require Import Base RclTime Latest_Model LatestDouble_Model LatestDouble_Spec LatestDouble_Laws
  LatestDouble_Bounds LatestDouble_Rate LatestDouble_Steady.
Import ListNotations.
Local Open Scope R_scope.
#[local] Existing Instance Hprec.
#[local] Existing Instance Hmax.
#[local] Existing Instance vexp.
#[local] Existing Instance mexp.

(** A weighted mean of values below [(1 + d) G], the new one below [G], stays below [(1 + d) G]
    if the weight of the new one outweighs the rounding. *)
Lemma mean_up u e z G w d g q c h m y :
  0 < u -> u <= / 1000000 -> 0 < e -> 100 * e <= u -> 0 <= z -> z <= e -> z <= e * G -> 0 < G -> 0 <= g <= G -> 0 <= w <= 1 ->
  0 <= d <= / 8 -> 4 * u <= w * d -> 0 <= c -> 0 <= h <= (1 + d) * G ->
  q <= (1 + u) * (w * g) + z -> c <= (1 + u) * (1 - w) + z -> m <= (1 + u) * (c * h) + z -> y <= (1 + u) * (q + m) + z ->
  y <= (1 + d) * G.
Proof.
  intros U0 U1 E0 E1 Z0 Z1 Z2 HG Hg W D WD C0 Hh Hq Hc Hm Hy.
  assert (Hwg : w * g <= w * G) by (apply mul_up; lra).
  assert (Hq' : (1 + u) * (w * g) <= (1 + u) * (w * G)) by (apply mul_up; lra).
  assert (Hch : c * h <= ((1 + u) * (1 - w) + z) * ((1 + d) * G)) by (apply Rmult_le_compat; lra).
  assert (HzG : z * ((1 + d) * G) <= 9 / 8 * (e * G)).
  { apply Rle_trans with (e * ((1 + d) * G)).
    - apply Rmult_le_compat_r; [apply Rmult_le_pos; lra|lra].
    - replace (e * ((1 + d) * G)) with ((1 + d) * (e * G)) by ring. apply Rmult_le_compat_r; [apply Rmult_le_pos; lra|lra]. }
  set (X := (1 - w) * ((1 + d) * G)).
  assert (HX : 0 <= X) by (unfold X; repeat (apply Rmult_le_pos; try lra)).
  assert (Hch' : c * h <= (1 + u) * X + 9 / 8 * (e * G)).
  { replace (((1 + u) * (1 - w) + z) * ((1 + d) * G)) with ((1 + u) * X + z * ((1 + d) * G)) in Hch by (unfold X; ring). lra. }
  assert (EG : 0 <= e * G) by (apply Rmult_le_pos; lra).
  assert (Hm' : m <= (1 + u) * ((1 + u) * X + 9 / 8 * (e * G)) + e * G).
  { assert ((1 + u) * (c * h) <= (1 + u) * ((1 + u) * X + 9 / 8 * (e * G))) by (apply mul_up; lra). lra. }
  assert (Hs : q + m <= (1 + u) * (w * G) + (1 + u) * ((1 + u) * X + 9 / 8 * (e * G)) + 2 * (e * G)) by lra.
  assert (Hy' : y <= (1 + u) * ((1 + u) * (w * G) + (1 + u) * ((1 + u) * X + 9 / 8 * (e * G)) + 2 * (e * G)) + e * G).
  { assert ((1 + u) * (q + m) <= (1 + u) * ((1 + u) * (w * G) + (1 + u) * ((1 + u) * X + 9 / 8 * (e * G)) + 2 * (e * G))) by (apply mul_up; lra). lra. }
  assert (HwG : 0 <= w * G) by (apply Rmult_le_pos; lra).
  assert (UX : 0 <= u * X) by (apply Rmult_le_pos; lra). assert (UUX : 0 <= u * (u * X) <= / 1000000 * (u * X)) by (split; [apply Rmult_le_pos; lra|apply Rmult_le_compat_r; lra]).
  assert (UUUX : u * (u * (u * X)) <= / 1000000 * (u * (u * X))) by (apply Rmult_le_compat_r; lra).
  assert (UW : 0 <= u * (w * G)) by (apply Rmult_le_pos; lra). assert (UUW : u * (u * (w * G)) <= / 1000000 * (u * (w * G))) by (apply Rmult_le_compat_r; lra).
  assert (UE : 0 <= u * (e * G) <= / 1000000 * (e * G)) by (split; [apply Rmult_le_pos; lra|apply Rmult_le_compat_r; lra]).
  assert (UUE : u * (u * (e * G)) <= / 1000000 * (u * (e * G))) by (apply Rmult_le_compat_r; lra).
  assert (Y1 : y <= w * G + X + 3.001 * (u * (w * G) + u * X) + 5 * (e * G)).
  { replace ((1 + u) * ((1 + u) * (w * G) + (1 + u) * ((1 + u) * X + 9 / 8 * (e * G)) + 2 * (e * G)) + e * G)
      with (w * G + 2 * (u * (w * G)) + u * (u * (w * G)) + X + 3 * (u * X) + 3 * (u * (u * X)) + u * (u * (u * X))
            + 33 / 8 * (e * G) + 17 / 4 * (u * (e * G)) + 9 / 8 * (u * (u * (e * G)))) in Hy' by field. lra. }
  assert (EX : w * G + X = (1 + d) * G - (w * d) * G) by (unfold X; ring).
  assert (WDG : 4 * (u * G) <= (w * d) * G).
  { replace (4 * (u * G)) with (4 * u * G) by ring. apply Rmult_le_compat_r; lra. }
  assert (EU : u * (w * G) + u * X = u * (w * G + X)) by ring. rewrite EX in EU.
  assert (UG0 : 0 <= u * G) by (apply Rmult_le_pos; lra).
  assert (EU2 : u * ((1 + d) * G - w * d * G) <= 9 / 8 * (u * G)).
  { apply Rle_trans with (u * (9 / 8 * G)); [|lra]. apply mul_up; [lra|].
    assert (d * G <= / 8 * G) by (apply Rmult_le_compat_r; lra). lra. }
  assert (E100 : 100 * (e * G) <= u * G).
  { replace (100 * (e * G)) with (100 * e * G) by ring. apply Rmult_le_compat_r; lra. }
  lra.
Qed.

Lemma mean_down u e z L w d g q c h m y :
  0 < u -> u <= / 1000000 -> 0 < e -> 100 * e <= u -> 0 <= z -> z <= e -> z <= e * L -> 0 < L -> L <= g -> 0 <= w <= 1 ->
  0 <= d <= / 8 -> 4 * u <= w * d -> 0 <= c -> (1 - d) * L <= h ->
  (1 - u) * (w * g) - z <= q -> (1 - u) * (1 - w) - z <= c -> (1 - u) * (c * h) - z <= m -> (1 - u) * (q + m) - z <= y ->
  (1 - d) * L <= y.
Proof.
  intros U0 U1 E0 E1 Z0 Z1 Z2 HL Hg W D WD C0 Hh Hq Hc Hm Hy.
  assert (Hwg : w * L <= w * g) by (apply mul_up; lra).
  assert (Hq' : (1 - u) * (w * L) <= (1 - u) * (w * g)) by (apply mul_up; lra).
  set (X := (1 - w) * ((1 - d) * L)). assert (DL : 0 <= (1 - d) * L) by (apply Rmult_le_pos; lra).
  assert (HX : 0 <= X) by (unfold X; apply Rmult_le_pos; lra).
  assert (EL : 0 <= e * L) by (apply Rmult_le_pos; lra).
  assert (Hz : z * ((1 - d) * L) <= e * L).
  { apply Rle_trans with (e * ((1 - d) * L)); [apply Rmult_le_compat_r; lra|]. apply mul_up; [lra|].
    assert (0 <= d * L) by (apply Rmult_le_pos; lra). lra. }
  assert (Hch : (1 - u) * X - e * L <= c * h).
  { apply Rle_trans with (((1 - u) * (1 - w) - z) * ((1 - d) * L)).
    - replace (((1 - u) * (1 - w) - z) * ((1 - d) * L)) with ((1 - u) * X - z * ((1 - d) * L)) by (unfold X; ring). lra.
    - apply Rle_trans with (c * ((1 - d) * L)); [apply Rmult_le_compat_r; lra|apply mul_up; lra]. }
  assert (Hm' : (1 - u) * ((1 - u) * X - e * L) - e * L <= m).
  { assert ((1 - u) * ((1 - u) * X - e * L) <= (1 - u) * (c * h)) by (apply mul_up; lra). lra. }
  assert (Hy' : (1 - u) * ((1 - u) * (w * L) + (1 - u) * ((1 - u) * X - e * L) - 2 * (e * L)) - e * L <= y).
  { assert ((1 - u) * ((1 - u) * (w * L) + (1 - u) * ((1 - u) * X - e * L) - 2 * (e * L)) <= (1 - u) * (q + m)) by (apply mul_up; lra). lra. }
  assert (HwL : 0 <= w * L) by (apply Rmult_le_pos; lra).
  assert (UX : 0 <= u * X) by (apply Rmult_le_pos; lra). assert (UUX : 0 <= u * (u * X) <= / 1000000 * (u * X)) by (split; [apply Rmult_le_pos; lra|apply Rmult_le_compat_r; lra]).
  assert (UUUX : u * (u * (u * X)) <= / 1000000 * (u * (u * X))) by (apply Rmult_le_compat_r; lra).
  assert (UW : 0 <= u * (w * L)) by (apply Rmult_le_pos; lra). assert (UUW : 0 <= u * (u * (w * L))) by (apply Rmult_le_pos; lra).
  assert (UE : 0 <= u * (e * L) <= / 1000000 * (e * L)) by (split; [apply Rmult_le_pos; lra|apply Rmult_le_compat_r; lra]).
  assert (UUE : u * (u * (e * L)) <= / 1000000 * (u * (e * L))) by (apply Rmult_le_compat_r; lra).
  assert (Y1 : w * L + X - 3.001 * (u * (w * L) + u * X) - 5 * (e * L) <= y).
  { replace ((1 - u) * ((1 - u) * (w * L) + (1 - u) * ((1 - u) * X - e * L) - 2 * (e * L)) - e * L)
      with (w * L - 2 * (u * (w * L)) + u * (u * (w * L)) + X - 3 * (u * X) + 3 * (u * (u * X)) - u * (u * (u * X))
            - 4 * (e * L) + 4 * (u * (e * L)) - (u * (u * (e * L)))) in Hy' by ring. lra. }
  assert (EX : w * L + X = (1 - d) * L + (w * d) * L) by (unfold X; ring).
  assert (WDL : 4 * (u * L) <= (w * d) * L).
  { replace (4 * (u * L)) with (4 * u * L) by ring. apply Rmult_le_compat_r; lra. }
  assert (EU : u * (w * L) + u * X = u * (w * L + X)) by ring. rewrite EX in EU.
  assert (UL0 : 0 <= u * L) by (apply Rmult_le_pos; lra).
  assert (Wd : w * d <= / 8) by (apply Rle_trans with (1 * / 8); [apply Rmult_le_compat; lra|lra]).
  assert (EU2 : u * ((1 - d) * L + w * d * L) <= u * L).
  { apply mul_up; [lra|]. assert (w * d * L <= d * L); [|lra]. apply Rmult_le_compat_r; [lra|].
    apply Rle_trans with (1 * d); [apply Rmult_le_compat_r; lra|lra]. }
  assert (E100 : 100 * (e * L) <= u * L).
  { replace (100 * (e * L)) with (100 * e * L) by ring. apply Rmult_le_compat_r; lra. }
  lra.
Qed.

(** The seconds of a period *)
Lemma sec_mono p q : tick p -> tick q -> (p <= q)%Z -> val (seconds p) <= val (seconds q).
Proof.
  intros Hp Hq Hpq. destruct (sec_val p Hp) as (_ & Vp & _), (sec_val q Hq) as (_ & Vq & _). rewrite Vp, Vq. apply RN_le.
  assert (RN (IZR p) <= RN (IZR q)) by (apply RN_le, IZR_le; lia). lra.
Qed.
Lemma sec_rel p : tick p ->
  (1 - 2.01 * bpow radix2 (-53)) * (IZR p / 1000000000) <= val (seconds p) <= (1 + 2.01 * bpow radix2 (-53)) * (IZR p / 1000000000).
Proof.
  intros Hp. destruct (sec_val p Hp) as (_ & Vp & _). rewrite Vp. unfold tick in Hp.
  assert (Hx : 1 <= IZR p) by (apply IZR_le; lia).
  assert (Small : bpow radix2 (-1022) <= bpow radix2 (-35)) by (apply bpow_le; lia).
  change (bpow radix2 (-35)) with (/ 34359738368) in Small.
  pose proof (rel (IZR p) ltac:(lra)) as R1. change (bpow radix2 (-53)) with (/ 9007199254740992) in *.
  pose proof (rel (RN (IZR p) / 1000000000) ltac:(lra)) as R2. change (bpow radix2 (-53)) with (/ 9007199254740992) in *.
  split; lra.
Qed.

(** One smoothing step *)
Lemma smooth_within a p h d Lo Hi : fin a -> 0 <= val a <= 1 -> tick p -> fin h -> 0 <= val h <= bpow radix2 32 ->
  0 <= d <= / 8 -> bpow radix2 (-51) <= val a * d -> bpow radix2 (-35) <= Lo -> Lo <= / val (seconds p) <= Hi ->
  (1 - d) * Lo <= val h <= (1 + d) * Hi ->
  (1 - d) * Lo <= val (SFadd prec emax (SFdiv prec emax a (seconds p)) (SFmul prec emax (SFsub prec emax (double_of_Z 1) a) h)) <= (1 + d) * Hi.
Proof.
  intros Fa Va Hp Fh Vh Hd Had HLo Hg Hh. destruct (sec_val p Hp) as (Fs & _ & Vs).
  destruct (quotient_val a p Fa Va Hp) as (Fq & Eq_ & Vq). destruct (one_minus a Fa Va) as (Fc & Ec & Vc).
  destruct (mix_bound a 30 (SFdiv prec emax a (seconds p)) h) as (_ & Ey & _); auto; try lia.
  set (y := val (SFadd prec emax (SFdiv prec emax a (seconds p)) (SFmul prec emax (SFsub prec emax (double_of_Z 1) a) h))) in *.
  set (s := val (seconds p)) in *. set (w := val a) in *. set (q := val (SFdiv prec emax a (seconds p))) in *.
  set (g := / s) in *. pose proof (bpow_gt_0 radix2 (-35)) as H35.
  unfold Rdiv in Eq_. fold g in Eq_.
  assert (Hwg : 0 <= w * g) by (apply Rmult_le_pos; lra).
  assert (Hq : (1 - bpow radix2 (-53)) * (w * g) - bpow radix2 (-1022) <= q <= (1 + bpow radix2 (-53)) * (w * g) + bpow radix2 (-1022)).
  { rewrite Eq_. now apply err. }
  assert (Hc : (1 - bpow radix2 (-53)) * (1 - w) - bpow radix2 (-1022) <= RN (1 - w) <= (1 + bpow radix2 (-53)) * (1 - w) + bpow radix2 (-1022)).
  { apply err. lra. }
  set (c := RN (1 - w)) in *. assert (Hc0 : 0 <= c) by (apply RN_pos; lra).
  assert (Hch : 0 <= c * val h) by (apply Rmult_le_pos; lra).
  assert (Hm : (1 - bpow radix2 (-53)) * (c * val h) - bpow radix2 (-1022) <= RN (c * val h) <= (1 + bpow radix2 (-53)) * (c * val h) + bpow radix2 (-1022)).
  { now apply err. }
  set (m := RN (c * val h)) in *. assert (Hm0 : 0 <= m) by (now apply RN_pos).
  assert (Hy : (1 - bpow radix2 (-53)) * (q + m) - bpow radix2 (-1022) <= y <= (1 + bpow radix2 (-53)) * (q + m) + bpow radix2 (-1022)).
  { rewrite Ey. apply err. lra. }
  assert (E1022 : bpow radix2 (-1022) <= bpow radix2 (-60) * bpow radix2 (-35)).
  { rewrite <- bpow_plus. apply bpow_le. lia. }
  assert (E1022' : bpow radix2 (-1022) <= bpow radix2 (-60)) by (apply bpow_le; lia).
  pose proof (bpow_gt_0 radix2 (-1022)) as E0. pose proof (bpow_gt_0 radix2 (-60)) as E60.
  assert (ELo : bpow radix2 (-1022) <= bpow radix2 (-60) * Lo) by (apply Rle_trans with (1 := E1022); apply mul_up; lra).
  assert (EHi : bpow radix2 (-1022) <= bpow radix2 (-60) * Hi) by (apply Rle_trans with (1 := ELo); apply mul_up; lra).
  assert (E51 : bpow radix2 (-51) = 4 * / 9007199254740992).
  { change 4 with (bpow radix2 2). change (/ 9007199254740992) with (bpow radix2 (-53)). rewrite <- bpow_plus. reflexivity. }
  rewrite E51 in Had. change (bpow radix2 (-53)) with (/ 9007199254740992) in *.
  change (bpow radix2 (-60)) with (/ 1152921504606846976) in *.
  set (z := bpow radix2 (-1022)) in *. set (b35 := bpow radix2 (-35)) in *. set (hv := val h) in *.
  clear Eq_ Ec Ey Fs Fq Fc Vq Vs Vc Hp Fa Fh E51. clearbody z c m q w g y s b35 hv.
  split.
  - apply (mean_down (/ 9007199254740992) (/ 1152921504606846976) z Lo w d g q c hv m y); lra.
  - apply (mean_up (/ 9007199254740992) (/ 1152921504606846976) z Hi w d g q c hv m y); lra.
Qed.

(** The rate of an interval, as the code computes it *)
Lemma inv_within p d Lo Hi : tick p -> bpow radix2 (-51) <= d -> bpow radix2 (-35) <= Lo -> Lo <= / val (seconds p) <= Hi ->
  (1 - d) * Lo <= val (rate_of p) <= (1 + d) * Hi.
Proof.
  intros Hp Hd HLo Hg. destruct (inv_val p Hp) as (_ & Ei & _). unfold Rdiv in Ei. rewrite Rmult_1_l in Ei.
  assert (H : bpow radix2 (-1022) <= / val (seconds p)).
  { apply Rle_trans with (bpow radix2 (-35)); [apply bpow_le; lia|lra]. }
  apply rel in H. rewrite <- Ei in H. pose proof (bpow_gt_0 radix2 (-35)).
  assert (bpow radix2 (-53) <= bpow radix2 (-51)) by (apply bpow_le; lia). pose proof (bpow_gt_0 radix2 (-53)).
  assert (bpow radix2 (-51) <= 1) by (apply (bpow_le radix2 (-51) 0); lia).
  set (g := / val (seconds p)) in *. set (u := bpow radix2 (-53)) in *.
  assert (K3 : d * Lo <= d * g) by (apply mul_up; lra). assert (K4 : u * g <= d * g) by (apply Rmult_le_compat_r; lra).
  assert (K5 : d * g <= d * Hi) by (apply mul_up; lra). assert (K6 : u * g <= u * Hi) by (apply mul_up; lra).
  assert (K7 : u * Lo <= d * Lo) by (apply Rmult_le_compat_r; lra).
  assert (K8 : (1 - u) * Lo <= (1 - u) * g) by (apply mul_up; lra). lra.
Qed.

Lemma estimate_step lo hi d now r :
  (0 < lo)%Z -> (hi <= 2 ^ 64)%Z -> rate_ok r -> int64 (ns now) -> clk now = clk (prev r) ->
  (lo <= ns now - ns (prev r) <= hi)%Z ->
  0 <= d <= / 8 -> bpow radix2 (-51) <= val (rate_alpha (conf r)) * d ->
  (do_hz_init r = false -> (1 - d) * / val (seconds hi) <= val (hz r) <= (1 + d) * / val (seconds lo)) ->
  exists r', compute_hz dops now r = Ok (r', true) /\ prev r' = now /\ conf r' = conf r /\ do_hz_init r' = false /\ rate_ok r' /\
    (1 - d) * / val (seconds hi) <= val (hz r') <= (1 + d) * / val (seconds lo).
Proof.
  intros Hlo Hhi HR Hn Hk Hp Hd Had Hb. pose proof HR as (Hs & Hpv & Fh & Vh & _).
  pose proof Hs as (Ha & _ & _). apply weight_val in Ha as [Fa Va].
  set (p := (ns now - ns (prev r))%Z) in *.
  assert (Tlo : tick lo) by (unfold tick; lia). assert (Thi : tick hi) by (unfold tick; lia). assert (Tp : tick p) by (unfold tick; lia).
  destruct (sec_val lo Tlo) as (_ & _ & Slo), (sec_val hi Thi) as (_ & _ & Shi), (sec_val p Tp) as (_ & _ & Sp).
  pose proof (bpow_gt_0 radix2 (-30)) as H30.
  pose proof (sec_mono lo p Tlo Tp ltac:(lia)) as M1. pose proof (sec_mono p hi Tp Thi ltac:(lia)) as M2.
  assert (Hg : / val (seconds hi) <= / val (seconds p) <= / val (seconds lo)) by (split; apply Rinv_le; lra).
  assert (H35 : bpow radix2 (-35) <= / val (seconds hi)).
  { rewrite (bpow_opp radix2 35 : bpow radix2 (-35) = _). apply Rinv_le; lra. }
  assert (Hd' : bpow radix2 (-51) <= d).
  { apply Rle_trans with (1 := Had). apply Rle_trans with (1 * d); [apply Rmult_le_compat_r; lra|lra]. }
  pose proof (inv_within p d _ _ Tp Hd' H35 Hg) as Hinv.
  assert (HC : exists r', compute_hz dops now r = Ok (r', true) /\ prev r' = now /\ conf r' = conf r /\ do_hz_init r' = false /\
    (1 - d) * / val (seconds hi) <= val (hz r') <= (1 + d) * / val (seconds lo)).
  { unfold compute_hz. cbn [hz_loop prev do_hz_init]. unfold time_sub.
    destruct (clock_eqb_spec (clk now) (clk (prev r))) as [_|]; [|congruence]. fold p.
    rewrite double_sign. destruct (Z.leb_spec p 0); [lia|].
    cbn [fdiv fone fsecs fabs fsub fgt fmul fadd dops]. fold (rate_of p).
    destruct (do_hz_init r); [eexists; split; [reflexivity|]; cbn; auto|]. specialize (Hb eq_refl).
    pose proof (smooth_within _ p _ d _ _ Fa Va Tp Fh Vh Hd Had H35 Hg Hb) as Hsm.
    destruct (do_error_init r); [|destruct (SFltb _ _)]; (eexists; split; [reflexivity|]; cbn [prev conf do_hz_init hz]; auto). }
  destruct HC as (r' & Hc & H1 & H2 & H3 & H4). exists r'. repeat (split; auto). 
  all: apply (compute_hz_ok now r r' true HR Hn Hc).
Qed.

Lemma estimate_run lo hi d ts r :
  (0 < lo)%Z -> (hi <= 2 ^ 64)%Z -> 0 <= d <= / 8 -> bpow radix2 (-51) <= val (rate_alpha (conf r)) * d ->
  rate_ok r -> intervals lo hi (prev r) ts ->
  (do_hz_init r = false -> (1 - d) * / val (seconds hi) <= val (hz r) <= (1 + d) * / val (seconds lo)) ->
  (ts = [] -> do_hz_init r = false) ->
  exists r', estimate r ts = Ok r' /\ rate_ok r' /\ (1 - d) * / val (seconds hi) <= val (hz r') <= (1 + d) * / val (seconds lo).
Proof.
  intros Hlo Hhi Hd. revert r. induction ts as [|t ts IH]; intros r Had HR HI Hb Hne.
  { exists r. cbn. auto. }
  destruct HI as (Hk & Hn & Hp & HI).
  destruct (estimate_step lo hi d t r) as (r1 & Hc & P1 & C1 & D1 & R1 & B1); auto.
  cbn [estimate]. rewrite Hc. cbn [bind]. apply IH; auto; [now rewrite C1|now rewrite P1].
Qed.
