(** Facts about binary64 used for LatestTime, from the real-number semantics of Flocq. *)
From Coq Require Import List ZArith Reals Lra Lia SpecFloat Psatz.
From Flocq Require Import Core.Core IEEE754.BinarySingleNaN Relative.
From Verif Require Import Base RclTime Latest_Model LatestDouble_Model.
Import ListNotations.
Local Open Scope R_scope.

#[local] Instance Hprec : Prec_gt_0 prec := eq_refl.
#[local] Instance Hmax : Prec_lt_emax prec emax := eq_refl.

Notation fexp64 := (SpecFloat.fexp prec emax).
Notation RN := (round radix2 fexp64 ZnearestE).
Notation val := (SF2R radix2).
Notation b64 := (binary_float prec emax).

(** A double that is neither infinite nor NaN. *)
Definition fin (x : double) : Prop := valid_binary prec emax x = true /\ is_finite_SF x = true.

#[local] Instance vexp : Valid_exp fexp64 := fexp_correct prec emax Hprec.
#[local] Instance mexp : Monotone_exp fexp64 := fexp_monotone prec emax.

Lemma fin_b x : fin x -> exists b : b64, B2SF b = x /\ is_finite b = true /\ B2R b = val x.
Proof.
  intros [Hv Hf]. exists (SF2B x Hv). rewrite B2SF_SF2B, is_finite_SF2B, B2R_SF2B. auto.
Qed.
Lemma b_fin (b : b64) : is_finite b = true -> fin (B2SF b) /\ val (B2SF b) = B2R b.
Proof.
  intros H. split; [split; [apply valid_binary_B2SF|now rewrite is_finite_SF_B2SF]|]. apply SF2R_B2SF.
Qed.

(** ** The operations of the standard library are those of Flocq. *)
Lemma round_aux_eq sx mx ex lx :
  SpecFloat.binary_round_aux prec emax sx mx ex lx = binary_round_aux prec emax mode_NE sx mx ex lx.
Proof.
  unfold SpecFloat.binary_round_aux, binary_round_aux. set (m := shr_fexp _ _ _ _ _). destruct m as [m e]. cbn.
  replace (round_nearest_even (shr_m m) (loc_of_shr_record m)) with (choice_mode mode_NE sx (shr_m m) (loc_of_shr_record m)); [reflexivity|].
  destruct (loc_of_shr_record m) as [|[]]; cbn; try reflexivity. unfold Round.cond_incr. now destruct (Z.even (shr_m m)).
Qed.
Lemma binround_eq s m e : SpecFloat.binary_round prec emax s m e = binary_round prec emax mode_NE s m e.
Proof. unfold SpecFloat.binary_round, binary_round, shl_align_fexp. destruct (shl_align _ _ _). apply round_aux_eq. Qed.
Lemma normalize_eq m e z : SpecFloat.binary_normalize prec emax m e z = B2SF (binary_normalize prec emax Hprec Hmax mode_NE m e z).
Proof. destruct m; simpl; [reflexivity|rewrite B2SF_SF2B; apply binround_eq..]. Qed.
Lemma add_eq (x y : b64) : SFadd prec emax (B2SF x) (B2SF y) = B2SF (Bplus mode_NE x y).
Proof. destruct x as [s|s| |s m e H], y as [s'|s'| |s' m' e' H']; [now (trivial || (cbn; destruct (Bool.eqb s s')))..|]. apply normalize_eq. Qed.
Lemma sub_eq (x y : b64) : SFsub prec emax (B2SF x) (B2SF y) = B2SF (Bminus mode_NE x y).
Proof.
  destruct x as [s|s| |s m e H], y as [s'|s'| |s' m' e' H']; [now (trivial || (cbn; destruct (Bool.eqb s (negb s'))))..|].
  simpl. unfold Zminus. rewrite <- cond_Zopp_negb. apply normalize_eq.
Qed.
Lemma mul_eq (x y : b64) : SFmul prec emax (B2SF x) (B2SF y) = B2SF (Bmult mode_NE x y).
Proof. destruct x as [s|s| |s m e H], y as [s'|s'| |s' m' e' H']; [now trivial..|]. simpl. rewrite B2SF_SF2B. apply round_aux_eq. Qed.
Lemma div_eq (x y : b64) : SFdiv prec emax (B2SF x) (B2SF y) = B2SF (Bdiv mode_NE x y).
Proof.
  destruct x as [s|s| |s m e H], y as [s'|s'| |s' m' e' H']; [now trivial..|]. simpl. rewrite B2SF_SF2B.
  destruct (SFdiv_core_binary _ _ _ _ _ _) as [[? ?] ?]. apply round_aux_eq.
Qed.

(** ** Each operation on finite doubles rounds the exact result to nearest. *)
Definition in_range (r : R) : Prop := Rabs (RN r) < bpow radix2 emax.

Lemma add_val x y : fin x -> fin y -> in_range (val x + val y) ->
  fin (SFadd prec emax x y) /\ val (SFadd prec emax x y) = RN (val x + val y).
Proof.
  intros Hx Hy Hr. destruct (fin_b x Hx) as (bx & <- & Fx & Ex), (fin_b y Hy) as (by_ & <- & Fy & Ey). rewrite add_eq.
  pose proof (Bplus_correct prec emax _ _ mode_NE bx by_ Fx Fy) as H. rewrite Ex, Ey, Rlt_bool_true in H by exact Hr.
  destruct H as (H1 & H2 & _). destruct (b_fin _ H2) as [H3 H4]. rewrite H4. auto.
Qed.
Lemma sub_val x y : fin x -> fin y -> in_range (val x - val y) ->
  fin (SFsub prec emax x y) /\ val (SFsub prec emax x y) = RN (val x - val y).
Proof.
  intros Hx Hy Hr. destruct (fin_b x Hx) as (bx & <- & Fx & Ex), (fin_b y Hy) as (by_ & <- & Fy & Ey). rewrite sub_eq.
  pose proof (Bminus_correct prec emax _ _ mode_NE bx by_ Fx Fy) as H. rewrite Ex, Ey, Rlt_bool_true in H by exact Hr.
  destruct H as (H1 & H2 & _). destruct (b_fin _ H2) as [H3 H4]. rewrite H4. auto.
Qed.
Lemma mul_val x y : fin x -> fin y -> in_range (val x * val y) ->
  fin (SFmul prec emax x y) /\ val (SFmul prec emax x y) = RN (val x * val y).
Proof.
  intros Hx Hy Hr. destruct (fin_b x Hx) as (bx & <- & Fx & Ex), (fin_b y Hy) as (by_ & <- & Fy & Ey). rewrite mul_eq.
  pose proof (Bmult_correct prec emax _ _ mode_NE bx by_) as H. rewrite Ex, Ey, Rlt_bool_true in H by exact Hr.
  rewrite Fx, Fy in H. destruct H as (H1 & H2 & _). destruct (b_fin _ H2) as [H3 H4]. rewrite H4. auto.
Qed.
Lemma div_val x y : fin x -> fin y -> val y <> 0 -> in_range (val x / val y) ->
  fin (SFdiv prec emax x y) /\ val (SFdiv prec emax x y) = RN (val x / val y).
Proof.
  intros Hx Hy Hz Hr. destruct (fin_b x Hx) as (bx & <- & Fx & Ex), (fin_b y Hy) as (by_ & <- & Fy & Ey). rewrite div_eq.
  pose proof (Bdiv_correct prec emax _ _ mode_NE bx by_) as H. rewrite Ex, Ey, Rlt_bool_true in H by exact Hr.
  specialize (H Hz). rewrite Fx in H. destruct H as (H1 & H2 & _). destruct (b_fin _ H2) as [H3 H4]. rewrite H4. auto.
Qed.
Lemma ltb_val x y : fin x -> fin y -> SFltb x y = Rlt_bool (val x) (val y).
Proof.
  intros Hx Hy. destruct (fin_b x Hx) as (bx & <- & Fx & Ex), (fin_b y Hy) as (by_ & <- & Fy & Ey).
  change (Bltb bx by_ = Rlt_bool (val (B2SF bx)) (val (B2SF by_))). rewrite <- Ex, <- Ey. now apply Bltb_correct.
Qed.
Lemma leb_val x y : fin x -> fin y -> SFleb x y = Rle_bool (val x) (val y).
Proof.
  intros Hx Hy. destruct (fin_b x Hx) as (bx & <- & Fx & Ex), (fin_b y Hy) as (by_ & <- & Fy & Ey).
  change (Bleb bx by_ = Rle_bool (val (B2SF bx)) (val (B2SF by_))). rewrite <- Ex, <- Ey. now apply Bleb_correct.
Qed.
Lemma eqb_val x y : fin x -> fin y -> SFeqb x y = Req_bool (val x) (val y).
Proof.
  intros Hx Hy. destruct (fin_b x Hx) as (bx & <- & Fx & Ex), (fin_b y Hy) as (by_ & <- & Fy & Ey).
  change (Beqb bx by_ = Req_bool (val (B2SF bx)) (val (B2SF by_))). rewrite <- Ex, <- Ey. now apply Beqb_correct.
Qed.
Lemma abs_val x : fin x -> fin (SFabs x) /\ val (SFabs x) = Rabs (val x).
Proof.
  intros Hx. destruct (fin_b x Hx) as (bx & <- & Fx & Ex). assert (E : SFabs (B2SF bx) = B2SF (Babs bx)) by now destruct bx.
  rewrite E. destruct (b_fin (Babs bx)) as [H1 H2]; [now rewrite is_finite_Babs|]. split; auto. rewrite H2, B2R_Babs. congruence.
Qed.
(** A non-zero finite double is determined by its value. *)
Lemma val_inj x y : fin x -> fin y -> val x = val y -> val x <> 0 -> x = y.
Proof.
  intros Hx Hy E Hz. destruct (fin_b x Hx) as (bx & <- & Fx & Ex), (fin_b y Hy) as (by_ & <- & Fy & Ey).
  f_equal. apply B2R_inj.
  - destruct bx; cbn in *; try discriminate; try congruence; auto.
  - destruct by_; cbn in *; try discriminate; try congruence; auto.
  - congruence.
Qed.
Lemma val_format x : fin x -> generic_format radix2 fexp64 (val x).
Proof. intros Hx. destruct (fin_b x Hx) as (bx & <- & Fx & Ex). rewrite <- Ex. apply generic_format_B2R. Qed.
Lemma val_range x : fin x -> Rabs (val x) < bpow radix2 emax.
Proof. intros Hx. destruct (fin_b x Hx) as (bx & <- & Fx & Ex). rewrite <- Ex. apply abs_B2R_lt_emax. Qed.

(** ** Bounds *)
Lemma RN_le x y : x <= y -> RN x <= RN y.
Proof. apply round_le; auto with typeclass_instances. Qed.
Lemma RN_bpow e : (-1074 <= e)%Z -> RN (bpow radix2 e) = bpow radix2 e.
Proof.
  intros H. apply round_generic; auto with typeclass_instances. apply generic_format_bpow.
  unfold SpecFloat.fexp, SpecFloat.emin. lia.
Qed.
Lemma RN_val x : fin x -> RN (val x) = val x.
Proof. intros H. apply round_generic; auto with typeclass_instances. now apply val_format. Qed.
Lemma RN_0 : RN 0 = 0.
Proof. apply round_0; auto with typeclass_instances. Qed.
Lemma RN_lo e x : (-1074 <= e)%Z -> bpow radix2 e <= x -> bpow radix2 e <= RN x.
Proof. intros He H. rewrite <- (RN_bpow e He). now apply RN_le. Qed.
Lemma RN_hi e x : (-1074 <= e)%Z -> x <= bpow radix2 e -> RN x <= bpow radix2 e.
Proof. intros He H. rewrite <- (RN_bpow e He). now apply RN_le. Qed.
Lemma RN_pos x : 0 <= x -> 0 <= RN x.
Proof. intros H. rewrite <- RN_0. now apply RN_le. Qed.
Lemma range_hi e x : (-1074 <= e < 1024)%Z -> 0 <= x <= bpow radix2 e -> in_range x.
Proof.
  intros He [H0 H]. unfold in_range. rewrite Rabs_pos_eq by now apply RN_pos.
  apply Rle_lt_trans with (bpow radix2 e); [apply RN_hi; auto; lia|]. apply bpow_lt. lia.
Qed.
Lemma range_below y x : fin y -> 0 <= x <= val y -> in_range x.
Proof.
  intros Hy [H0 H]. unfold in_range. rewrite Rabs_pos_eq by now apply RN_pos.
  apply Rle_lt_trans with (val y); [rewrite <- (RN_val y Hy); now apply RN_le|].
  apply Rle_lt_trans with (2 := val_range y Hy). apply Rle_abs.
Qed.
Lemma range_dist x y z : fin z -> 0 <= x <= val z -> 0 <= y <= val z -> in_range (x - y).
Proof.
  intros Hz Hx Hy. unfold in_range.
  apply Rle_lt_trans with (val z); [|apply Rle_lt_trans with (2 := val_range z Hz); apply Rle_abs].
  apply Rabs_le. rewrite <- (RN_val z Hz). split; [rewrite <- round_NE_opp|]; apply RN_le; lra.
Qed.

(** ** The conversion to seconds *)
Lemma round_opp m e : SpecFloat.binary_round prec emax true m e = SFopp (SpecFloat.binary_round prec emax false m e).
Proof.
  unfold SpecFloat.binary_round. destruct (shl_align _ _ _) as [mz ez]. unfold SpecFloat.binary_round_aux.
  destruct (shr_fexp _ _ _ _ _) as [m1 e1]. destruct (shr_fexp _ _ _ _ _) as [m2 e2].
  destruct (shr_m m2); cbn; auto. destruct (_ <=? _)%Z; reflexivity.
Qed.
Lemma of_Z_opp m : double_of_Z (Z.neg m) = SFopp (double_of_Z (Z.pos m)).
Proof. apply round_opp. Qed.

Lemma IZR_F2R z : F2R (Float radix2 z 0) = IZR z.
Proof. unfold F2R. cbn. lra. Qed.

Lemma of_pos_cases m : double_of_Z (Z.pos m) = S754_infinity false \/
  fin (double_of_Z (Z.pos m)) /\ val (double_of_Z (Z.pos m)) = RN (IZR (Z.pos m)).
Proof.
  unfold double_of_Z. rewrite normalize_eq.
  pose proof (binary_normalize_correct prec emax _ _ mode_NE (Z.pos m) 0 false) as H. cbv zeta in H. rewrite IZR_F2R in H.
  destruct (Rlt_bool _ _).
  - right. destruct H as (H1 & H2 & _). destruct (b_fin _ H2) as [H3 H4]. rewrite H4. auto.
  - left. rewrite H. unfold binary_overflow. cbn. rewrite Rlt_bool_false; [reflexivity|]. apply IZR_le. lia.
Qed.
Lemma of_Z_val z : (0 <= z <= 2 ^ 63)%Z -> fin (double_of_Z z) /\ val (double_of_Z z) = RN (IZR z).
Proof.
  intros Hz. unfold double_of_Z. rewrite normalize_eq.
  pose proof (binary_normalize_correct prec emax _ _ mode_NE z 0 false) as H. cbv zeta in H. rewrite IZR_F2R in H.
  rewrite Rlt_bool_true in H.
  - destruct H as (H1 & H2 & _). destruct (b_fin _ H2) as [H3 H4]. rewrite H4. auto.
  - apply (range_hi 63); [lia|]. split; [apply IZR_le; lia|]. change (bpow radix2 63) with (IZR (2 ^ 63)). apply IZR_le. lia.
Qed.
Lemma RN_IZR z : (0 <= z <= 2 ^ 53)%Z -> RN (IZR z) = IZR z.
Proof.
  intros Hz. apply round_generic; auto with typeclass_instances. rewrite <- (IZR_F2R z).
  destruct (Z.eq_dec z (2 ^ 53)) as [->|Hne].
  - rewrite IZR_F2R. change (IZR (2 ^ 53)) with (bpow radix2 53). apply generic_format_bpow. unfold SpecFloat.fexp, SpecFloat.emin. lia.
  - apply generic_format_FLT. exists (Float radix2 z 0); auto; cbn; lia.
Qed.
Lemma billion : fin (double_of_Z 1000000000) /\ val (double_of_Z 1000000000) = 1000000000.
Proof. destruct (of_Z_val 1000000000) as [H1 H2]; [lia|]. split; auto. rewrite H2. apply RN_IZR. lia. Qed.
Lemma one_val : fin (double_of_Z 1) /\ val (double_of_Z 1) = 1.
Proof. destruct (of_Z_val 1) as [H1 H2]; [lia|]. split; auto. rewrite H2. apply RN_IZR. lia. Qed.
Lemma zero_fin : fin (S754_zero false).
Proof. split; reflexivity. Qed.

Lemma seconds_pos m : seconds (Z.pos m) = S754_infinity false \/ fin (seconds (Z.pos m)) /\ 0 < val (seconds (Z.pos m)).
Proof.
  destruct billion as [Fb Vb]. unfold seconds. destruct (of_pos_cases m) as [->|[Hf Hv]].
  - left. reflexivity.
  - right. assert (Hx : 1 <= val (double_of_Z (Z.pos m))).
    { rewrite Hv. change 1 with (bpow radix2 0). apply RN_lo; [lia|]. cbn. apply IZR_le. lia. }
    assert (Hd : 0 <= val (double_of_Z (Z.pos m)) / 1000000000 <= val (double_of_Z (Z.pos m))) by lra.
    destruct (div_val (double_of_Z (Z.pos m)) (double_of_Z 1000000000)) as [H1 H2]; auto; rewrite ?Vb; try lra.
    + now apply (range_below (double_of_Z (Z.pos m))).
    + split; auto. rewrite H2, Vb. apply Rlt_le_trans with (bpow radix2 (-30)); [apply bpow_gt_0|].
      apply RN_lo; [lia|]. change (bpow radix2 (-30)) with (/ 1073741824). lra.
Qed.

Lemma seconds_neg m : seconds (Z.neg m) = SFopp (seconds (Z.pos m)).
Proof.
  unfold seconds. rewrite of_Z_opp. generalize (double_of_Z (Z.pos m)). intros x.
  destruct (double_of_Z 1000000000) eqn:E; vm_compute in E; try discriminate. injection E as <- <- <-.
  destruct x as [s|s| |s mx ex]; [now destruct s|now destruct s|reflexivity|].
  cbn -[SFdiv_core_binary SpecFloat.binary_round_aux]. destruct (SFdiv_core_binary _ _ _ _ _ _) as [[mz ez] lz].
  unfold SpecFloat.binary_round_aux. destruct (shr_fexp _ _ mz ez lz) as [m1 e1]. destruct (shr_fexp _ _ _ _ _) as [m2 e2].
  destruct s, (shr_m m2) as [|pm|pm]; try reflexivity; unfold xorb, negb, SFopp; destruct (Zle_bool e2 (emax - prec)); reflexivity.
Qed.

(** The sign of a duration survives the conversion. *)
Lemma double_sign z : fle dops (fsecs dops z) (fzero dops) = (z <=? 0)%Z.
Proof.
  cbn [fle fsecs fzero dops]. destruct z as [|m|m]; [reflexivity| |].
  - destruct (seconds_pos m) as [->|[Hf Hp]]; [reflexivity|]. rewrite leb_val by (auto using zero_fin).
    cbn. now rewrite Rle_bool_false.
  - rewrite seconds_neg. destruct (seconds_pos m) as [->|[Hf Hp]]; [reflexivity|].
    destruct (seconds (Z.pos m)) as [[]|[]| |[] mm e]; try reflexivity; exfalso; cbn in Hp; try lra; destruct Hf; try discriminate.
    unfold F2R in Hp; cbn in Hp. pose proof (bpow_gt_0 radix2 e). pose proof (IZR_lt (Z.neg mm) 0 ltac:(lia)). nra.
Qed.
Lemma double_zero z : feq dops (fsecs dops z) (fzero dops) = (z =? 0)%Z.
Proof.
  cbn [feq fsecs fzero dops]. destruct z as [|m|m]; [reflexivity| |].
  - destruct (seconds_pos m) as [->|[Hf Hp]]; [reflexivity|]. rewrite eqb_val by (auto using zero_fin).
    cbn. rewrite Req_bool_false by lra. reflexivity.
  - rewrite seconds_neg. destruct (seconds_pos m) as [->|[Hf Hp]]; [reflexivity|].
    destruct (seconds (Z.pos m)) as [[]|[]| |[] mm e]; try reflexivity; exfalso; cbn in Hp; lra.
Qed.
