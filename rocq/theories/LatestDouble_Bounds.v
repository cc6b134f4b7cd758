(** Bounds of the rate estimate in binary64: no overflow, no NaN. *)
From Coq Require Import List ZArith Reals Lra Lia SpecFloat Psatz.
From Flocq Require Import Core.Core IEEE754.BinarySingleNaN Relative Plus_error.
From Verif Require Import Base RclTime Latest_Model LatestDouble_Model LatestDouble_Spec LatestDouble_Laws.
Import ListNotations.
Local Open Scope R_scope.

#[local] Existing Instance Hprec.
#[local] Existing Instance Hmax.
#[local] Existing Instance vexp.
#[local] Existing Instance mexp.

(** ** Periods of up to 2^64 nanoseconds *)
Definition tick (p : Z) : Prop := (0 < p <= 2 ^ 64)%Z.

Lemma of_Z_val' z : (0 <= z <= 2 ^ 64)%Z -> fin (double_of_Z z) /\ val (double_of_Z z) = RN (IZR z).
Proof.
  intros Hz. unfold double_of_Z. rewrite normalize_eq.
  pose proof (binary_normalize_correct prec emax _ _ mode_NE z 0 false) as H. cbv zeta in H. rewrite IZR_F2R in H.
  rewrite Rlt_bool_true in H.
  - destruct H as (H1 & H2 & _). destruct (b_fin _ H2) as [H3 H4]. rewrite H4. auto.
  - apply (range_hi 64); [lia|]. split; [apply IZR_le; lia|]. change (bpow radix2 64) with (IZR (2 ^ 64)). apply IZR_le. lia.
Qed.

Lemma sec_val p : tick p -> fin (seconds p) /\ val (seconds p) = RN (RN (IZR p) / 1000000000) /\
  bpow radix2 (-30) <= val (seconds p) <= bpow radix2 35.
Proof.
  intros Hp. unfold tick in Hp. destruct billion as [Fb Vb]. destruct (of_Z_val' p) as [Fp Vp]; [lia|].
  assert (H1 : 1 <= RN (IZR p)) by (change 1 with (bpow radix2 0); apply RN_lo; [lia|]; cbn; apply IZR_le; lia).
  assert (H2 : RN (IZR p) <= bpow radix2 64).
  { apply RN_hi; [lia|]. change (bpow radix2 64) with (IZR (2 ^ 64)). apply IZR_le. lia. }
  change (bpow radix2 64) with 18446744073709551616 in H2.
  assert (H3 : bpow radix2 (-30) <= RN (IZR p) / 1000000000 <= bpow radix2 35).
  { change (bpow radix2 (-30)) with (/ 1073741824). change (bpow radix2 35) with 34359738368. lra. }
  pose proof (bpow_gt_0 radix2 (-30)).
  destruct (div_val (double_of_Z p) (double_of_Z 1000000000)) as [H4 H5]; auto; rewrite ?Vb, ?Vp; try lra.
  { apply (range_hi 35); [lia|lra]. }
  fold (seconds p) in H4, H5. rewrite Vb, Vp in H5. split; auto. split; auto. rewrite H5. split; [apply RN_lo|apply RN_hi]; try lia; lra.
Qed.

Notation inv := rate_of.

Lemma inv_val p : tick p -> fin (inv p) /\ val (inv p) = RN (1 / val (seconds p)) /\
  bpow radix2 (-35) <= val (inv p) <= bpow radix2 30.
Proof.
  intros Hp. destruct (sec_val p Hp) as (Fs & _ & Hs). destruct one_val as [F1 V1].
  pose proof (bpow_gt_0 radix2 (-30)) as H0.
  assert (H3 : bpow radix2 (-35) <= 1 / val (seconds p) <= bpow radix2 30).
  { rewrite (bpow_opp radix2 35 : bpow radix2 (-35) = _), (bpow_opp radix2 (-30) : bpow radix2 30 = _).
    unfold Rdiv. rewrite Rmult_1_l.
    split; apply Rinv_le; lra. }
  pose proof (bpow_gt_0 radix2 (-35)).
  destruct (div_val (double_of_Z 1) (seconds p)) as [H4 H5]; auto; rewrite ?V1; try lra.
  { apply (range_hi 30); [lia|lra]. }
  fold (inv p) in H4, H5. rewrite V1 in H5. split; auto. split; auto. rewrite H5. split; [apply RN_lo|apply RN_hi]; try lia; lra.
Qed.
Lemma inv_pos p : tick p -> 0 < val (inv p).
Proof. intros H. destruct (inv_val p H) as (_ & _ & H1). pose proof (bpow_gt_0 radix2 (-35)). lra. Qed.

(** A longer period never has a larger rate. *)
Lemma inv_antitone p q : tick p -> tick q -> (p <= q)%Z -> val (inv q) <= val (inv p).
Proof.
  intros Hp Hq Hpq. destruct (inv_val p Hp) as (_ & -> & _), (inv_val q Hq) as (_ & -> & _).
  destruct (sec_val p Hp) as (_ & Vp & Bp), (sec_val q Hq) as (_ & Vq & Bq). pose proof (bpow_gt_0 radix2 (-30)).
  apply RN_le. unfold Rdiv. rewrite !Rmult_1_l. apply Rinv_le; [lra|]. rewrite Vp, Vq. apply RN_le.
  assert (RN (IZR p) <= RN (IZR q)) by (apply RN_le, IZR_le; lia). lra.
Qed.

Lemma rel x : bpow radix2 (-1022) <= x -> (1 - bpow radix2 (-53)) * x <= RN x <= (1 + bpow radix2 (-53)) * x.
Proof.
  intros Hx. assert (Hp : 0 < x) by (apply Rlt_le_trans with (2 := Hx); apply bpow_gt_0).
  pose proof (relative_error_N_FLT radix2 (3 - emax - prec) prec Hprec (fun z => negb (Z.even z)) x) as H.
  change (3 - emax - prec + prec - 1)%Z with (-1022)%Z in H. rewrite (Rabs_pos_eq x) in H by lra. specialize (H Hx).
  change (FLT_exp (3 - emax - prec) prec) with fexp64 in H.
  replace (/ 2 * bpow radix2 (- prec + 1)) with (bpow radix2 (-53)) in H.
  - apply Rabs_le_inv in H. lra.
  - change (/ 2) with (bpow radix2 (-1)). rewrite <- bpow_plus. reflexivity.
Qed.
(** Periods of up to 2^46 nanoseconds (19 hours) are told apart, even when the rates are
    slightly perturbed. *)
Lemma inv_gap p q : (0 < p < q)%Z -> (q <= 2 ^ 46)%Z ->
  (1 + bpow radix2 (-50)) * val (inv q) < (1 - bpow radix2 (-50)) * val (inv p).
Proof.
  intros Hp Hq. assert (Tp : tick p) by (unfold tick; lia). assert (Tq : tick q) by (unfold tick; lia).
  destruct (inv_val p Tp) as (_ & Ip & _), (inv_val q Tq) as (_ & Iq & _).
  destruct (sec_val p Tp) as (_ & Vp & Bp), (sec_val q Tq) as (_ & Vq & Bq).
  rewrite RN_IZR in Vp, Vq by lia.
  change (bpow radix2 (-30)) with (/ 1073741824) in *. change (bpow radix2 35) with 34359738368 in *.
  assert (Small : bpow radix2 (-1022) <= bpow radix2 (-35)) by (apply bpow_le; lia).
  change (bpow radix2 (-35)) with (/ 34359738368) in Small.
  assert (Rp : 1 <= IZR p) by (apply IZR_le; lia). assert (Rq : IZR p + 1 <= IZR q).
  { rewrite <- plus_IZR. apply IZR_le. lia. }
  assert (Rm : IZR q <= 70368744177664) by (apply (IZR_le _ (2 ^ 46)); lia).
  pose proof (rel (IZR p / 1000000000) ltac:(lra)) as Sp. pose proof (rel (IZR q / 1000000000) ltac:(lra)) as Sq.
  rewrite <- Vp in Sp. rewrite <- Vq in Sq.
  assert (Ep : / 34359738368 <= 1 / val (seconds p)).
  { unfold Rdiv. rewrite Rmult_1_l. apply Rinv_le; lra. }
  assert (Eq_ : / 34359738368 <= 1 / val (seconds q)).
  { unfold Rdiv. rewrite Rmult_1_l. apply Rinv_le; lra. }
  pose proof (rel (1 / val (seconds p)) ltac:(lra)) as Jp. pose proof (rel (1 / val (seconds q)) ltac:(lra)) as Jq.
  rewrite <- Ip in Jp. rewrite <- Iq in Jq. change (bpow radix2 (-53)) with (/ 9007199254740992) in *.
  set (sp := val (seconds p)) in *. set (sq := val (seconds q)) in *.
  change (bpow radix2 (-50)) with (/ 1125899906842624).
  assert (H0 : 0 < sp) by lra. assert (H1 : 0 < sq) by lra.
  assert (H2 : sp * (1 + / 140737488355328) <= sq) by lra.
  apply Rle_lt_trans with ((1 + / 1125899906842624) * ((1 + / 9007199254740992) * (1 / sq))); [apply Rmult_le_compat_l; lra|].
  apply Rlt_le_trans with ((1 - / 1125899906842624) * ((1 - / 9007199254740992) * (1 / sp))); [|apply Rmult_le_compat_l; lra].
  apply Rmult_lt_reg_r with (sp * sq); [nra|].
  replace ((1 + / 1125899906842624) * ((1 + / 9007199254740992) * (1 / sq)) * (sp * sq)) with ((1 + / 1125899906842624) * (1 + / 9007199254740992) * sp) by (field; lra).
  replace ((1 - / 1125899906842624) * ((1 - / 9007199254740992) * (1 / sp)) * (sp * sq)) with ((1 - / 1125899906842624) * (1 - / 9007199254740992) * sq) by (field; lra).
  lra.
Qed.

(** ** A weighted mean stays bounded *)
Lemma RN_scale k c : fin c -> (0 <= k <= 100)%Z -> 0 <= val c <= 1 -> RN (val c * bpow radix2 k) = val c * bpow radix2 k.
Proof.
  intros Hc Hk Hv. apply round_generic; auto with typeclass_instances.
  pose proof (val_format c Hc) as H. apply (FLT_format_generic radix2 (3 - emax - prec) prec) in H. destruct H as [g H1 H2 H3].
  apply (generic_format_FLT radix2 (3 - emax - prec) prec). exists (Float radix2 (Fnum g) (Fexp g + k)); cbn in *; auto; try lia.
  rewrite H1. unfold F2R. cbn. rewrite bpow_plus. ring.
Qed.

Lemma one_minus a : fin a -> 0 <= val a <= 1 ->
  fin (SFsub prec emax (double_of_Z 1) a) /\ val (SFsub prec emax (double_of_Z 1) a) = RN (1 - val a) /\
  0 <= val (SFsub prec emax (double_of_Z 1) a) <= 1.
Proof.
  intros Ha Hv. destruct one_val as [F1 V1]. destruct (sub_val (double_of_Z 1) a) as [H1 H2]; auto; rewrite ?V1.
  { apply (range_hi 0); [lia|]. cbn. lra. }
  rewrite V1 in H2. split; auto. split; auto. rewrite H2. split; [apply RN_pos; lra|]. apply (RN_hi 0); [lia|]. cbn. lra.
Qed.

Lemma mix_bound a k x h : fin a -> 0 <= val a <= 1 -> (0 <= k <= 60)%Z ->
  fin x -> 0 <= val x <= val a * bpow radix2 k -> fin h -> 0 <= val h <= bpow radix2 (k + 2) ->
  let y := SFadd prec emax x (SFmul prec emax (SFsub prec emax (double_of_Z 1) a) h) in
  fin y /\ val y = RN (val x + RN (RN (1 - val a) * val h)) /\ 0 <= val y <= bpow radix2 (k + 2).
Proof.
  intros Ha Va Hk Hx Vx Hh Vh. destruct (one_minus a Ha Va) as (Fc & Ec & Vc).
  set (c := SFsub prec emax (double_of_Z 1) a) in *. cbv zeta.
  pose proof (bpow_gt_0 radix2 k) as B0. pose proof (bpow_gt_0 radix2 (k + 2)) as B2.
  assert (Hm : 0 <= val c * val h <= val c * bpow radix2 (k + 2)) by nra.
  assert (Hm' : val c * val h <= bpow radix2 (k + 2)) by nra.
  destruct (mul_val c h) as [Fm Em]; auto. { apply (range_hi (k + 2)); [lia|lra]. }
  set (m := SFmul prec emax c h) in *.
  assert (Vm : 0 <= val m <= val c * bpow radix2 (k + 2)).
  { rewrite Em. split; [apply RN_pos; lra|]. rewrite <- (RN_scale (k + 2) c) by (auto; lia). apply RN_le. lra. }
  assert (Hmax : val m <= bpow radix2 (k + 2)) by nra.
  assert (E4 : bpow radix2 (k + 2) = 4 * bpow radix2 k) by (rewrite bpow_plus; cbn; ring).
  destruct (add_val x m) as [Fy Ey]; auto.
  { apply (range_hi (k + 3)); [lia|]. rewrite bpow_plus in *. cbn in *. nra. }
  split; auto. split. { rewrite Ey, Em, Ec. reflexivity. }
  rewrite Ey. split; [apply RN_pos; lra|].
  destruct (Rle_or_lt (bpow radix2 (-52)) (val a)) as [Hl|Hl].
  - apply RN_hi; [lia|]. assert (Hc : val c <= 1 - val a / 2); [|nra].
    rewrite Ec. destruct (Rle_or_lt (bpow radix2 (-1022)) (1 - val a)) as [Hn|Hn].
    + pose proof (rel _ Hn) as [_ Hr]. apply Rle_trans with (1 := Hr).
      replace (bpow radix2 (-52)) with (2 * bpow radix2 (-53)) in Hl by (change (-52)%Z with (-53 + 1)%Z; rewrite bpow_plus; cbn; lra).
      pose proof (bpow_gt_0 radix2 (-53)). nra.
    + apply Rle_trans with (bpow radix2 (-1022)); [apply RN_hi; [lia|lra]|].
      apply Rle_trans with (bpow radix2 (-1)); [apply bpow_le; lia|]. change (bpow radix2 (-1)) with (/ 2). lra.
  - apply round_N_le_midp; auto with typeclass_instances.
    { apply generic_format_bpow. unfold SpecFloat.fexp, SpecFloat.emin. lia. }
    rewrite succ_eq_pos by lra. rewrite ulp_bpow.
    assert (Hu : bpow radix2 (fexp64 (k + 2 + 1)) = 4 * bpow radix2 (-52) * bpow radix2 k).
    { change 4 with (bpow radix2 2). rewrite <- !bpow_plus. f_equal. unfold SpecFloat.fexp, SpecFloat.emin. lia. }
    rewrite Hu. nra.
Qed.
