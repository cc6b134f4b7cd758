(** The rate estimates stay finite whatever is received. *)
From Coq Require Import List Arith ZArith Reals Lra Lia SpecFloat Psatz.
From Flocq Require Import Core.Core IEEE754.BinarySingleNaN Relative Plus_error.
From Verif Require Import Base RclTime Trace Latest_Model Latest_Spec Latest_Proofs LatestDouble_Model LatestDouble_Spec LatestDouble_Laws LatestDouble_Bounds.
Import ListNotations.
Local Open Scope R_scope.

#[local] Existing Instance Hprec.
#[local] Existing Instance Hmax.
#[local] Existing Instance vexp.
#[local] Existing Instance mexp.

Lemma number_fin x : number x <-> fin x.
Proof. unfold number, fin. destruct x; cbn; intuition discriminate. Qed.
Lemma zero_val : fin (double_of_Z 0) /\ val (double_of_Z 0) = 0.
Proof. split; [apply zero_fin|reflexivity]. Qed.
Lemma weight_val x : weight x -> fin x /\ 0 <= val x <= 1.
Proof.
  intros (Hn & H0 & H1). apply number_fin in Hn. split; auto.
  destruct zero_val as [F0 V0], one_val as [F1 V1]. rewrite leb_val, V0 in H0 by auto. rewrite leb_val, V1 in H1 by auto.
  revert H0 H1. destruct (Rle_bool_spec 0 (val x)), (Rle_bool_spec (val x) 1); intros; try discriminate; lra.
Qed.
Lemma factor_val x : factor x -> fin x /\ 0 <= val x.
Proof.
  intros (Hn & H0). apply number_fin in Hn. split; auto.
  destruct zero_val as [F0 V0]. rewrite leb_val, V0 in H0 by auto.
  revert H0. destruct (Rle_bool_spec 0 (val x)); intros; try discriminate; lra.
Qed.

(** The sign of a difference is that of the comparison. *)
Lemma diff_zero x y : fin x -> fin y -> RN (val x - val y) = 0 -> val x = val y.
Proof.
  intros Hx Hy H. destruct (Req_dec (val x) (val y)) as [|Hne]; auto. exfalso.
  revert H. unfold Rminus. apply (round_plus_neq_0 radix2 fexp64 ZnearestE).
  - now apply val_format.
  - apply generic_format_opp. now apply val_format.
  - lra.
Qed.
Lemma diff_pos x y : fin x -> fin y -> (0 < RN (val x - val y) <-> val y < val x).
Proof.
  intros Hx Hy. split; intros H.
  - destruct (Rlt_or_le (val y) (val x)) as [|Hle]; auto. exfalso.
    assert (RN (val x - val y) <= 0); [|lra]. rewrite <- RN_0. apply RN_le. lra.
  - assert (0 <= RN (val x - val y)) by (apply RN_pos; lra).
    destruct (Req_dec (RN (val x - val y)) 0) as [E|]; [|lra]. apply diff_zero in E; auto. lra.
Qed.

(** ** One update *)
Definition rate_ok (r : rate double) : Prop :=
  sensible (conf r) /\ int64 (ns (prev r)) /\
  fin (hz r) /\ 0 <= val (hz r) <= bpow radix2 32 /\ fin (error r) /\ 0 <= val (error r) <= bpow radix2 34.

Lemma quotient_val a p : fin a -> 0 <= val a <= 1 -> tick p ->
  fin (SFdiv prec emax a (seconds p)) /\ val (SFdiv prec emax a (seconds p)) = RN (val a / val (seconds p)) /\
  0 <= val (SFdiv prec emax a (seconds p)) <= val a * bpow radix2 30.
Proof.
  intros Fa Va Hp. destruct (sec_val p Hp) as (Fs & _ & Hs). pose proof (bpow_gt_0 radix2 (-30)) as H0.
  assert (Hi : 0 < / val (seconds p) <= bpow radix2 30).
  { rewrite (bpow_opp radix2 (-30) : bpow radix2 30 = _). split; [apply Rinv_0_lt_compat; lra|]. apply Rinv_le; lra. }
  assert (Hq : 0 <= val a / val (seconds p) <= val a * bpow radix2 30) by (unfold Rdiv; nra).
  assert (Hb : val a * bpow radix2 30 <= bpow radix2 30) by (pose proof (bpow_gt_0 radix2 30); nra).
  destruct (div_val a (seconds p)) as [H1 H2]; auto; try lra.
  { apply (range_hi 30); [lia|lra]. }
  split; auto. split; auto. rewrite H2. split; [apply RN_pos; lra|].
  rewrite <- (RN_scale 30 a) by (auto; lia). apply RN_le. lra.
Qed.

Lemma smooth_ok a p h : fin a -> 0 <= val a <= 1 -> tick p -> fin h -> 0 <= val h <= bpow radix2 32 ->
  let y := SFadd prec emax (SFdiv prec emax a (seconds p)) (SFmul prec emax (SFsub prec emax (double_of_Z 1) a) h) in
  fin y /\ 0 <= val y <= bpow radix2 32.
Proof.
  intros Fa Va Hp Fh Vh. destruct (quotient_val a p Fa Va Hp) as (F1 & _ & V1).
  destruct (mix_bound a 30 _ h Fa Va ltac:(lia) F1 V1 Fh Vh) as (H1 & _ & H2). auto.
Qed.

Lemma delta_ok h p : tick p -> fin h -> 0 <= val h <= bpow radix2 32 ->
  let d := SFabs (SFsub prec emax h (inv p)) in
  fin d /\ val d = Rabs (RN (val h - val (inv p))) /\ 0 <= val d <= bpow radix2 32.
Proof.
  intros Hp Fh Vh. destruct (inv_val p Hp) as (Fi & _ & Vi). pose proof (bpow_gt_0 radix2 (-35)).
  assert (bpow radix2 30 <= bpow radix2 32) by (apply bpow_le; lia).
  assert (Hd : Rabs (RN (val h - val (inv p))) <= bpow radix2 32).
  { apply Rabs_le. split.
    - rewrite <- (RN_bpow 32) by lia. rewrite <- round_NE_opp. apply RN_le. lra.
    - apply RN_hi; [lia|lra]. }
  destruct (sub_val h (inv p)) as [F1 V1]; auto.
  { apply Rle_lt_trans with (1 := Hd). apply bpow_lt. lia. }
  destruct (abs_val _ F1) as [F2 V2]. cbv zeta. rewrite V2, V1. split; auto. split; auto. split; auto. apply Rabs_pos.
Qed.

Lemma error_ok b d er : fin b -> 0 <= val b <= 1 -> fin d -> 0 <= val d <= bpow radix2 32 -> fin er -> 0 <= val er <= bpow radix2 34 ->
  let y := SFadd prec emax (SFmul prec emax b d) (SFmul prec emax (SFsub prec emax (double_of_Z 1) b) er) in
  fin y /\ 0 <= val y <= bpow radix2 34.
Proof.
  intros Fb Vb Fd Vd Fe Ve. assert (Hm : 0 <= val b * val d <= val b * bpow radix2 32) by nra.
  assert (Hb : val b * bpow radix2 32 <= bpow radix2 32) by (pose proof (bpow_gt_0 radix2 32); nra).
  destruct (mul_val b d) as [F1 V1]; auto. { apply (range_hi 32); [lia|lra]. }
  destruct (mix_bound b 32 (SFmul prec emax b d) er) as (H1 & _ & H2); auto; try lia.
  rewrite V1. split; [apply RN_pos; lra|]. rewrite <- (RN_scale 32 b) by (auto; lia). apply RN_le. lra.
Qed.

Lemma int64_tick x y : int64 x -> int64 y -> (y < x)%Z -> tick (x - y).
Proof. unfold int64, tick. lia. Qed.

Lemma compute_hz_ok now r r' b : rate_ok r -> int64 (ns now) -> compute_hz dops now r = Ok (r', b) -> rate_ok r'.
Proof.
  intros HR Hn Hc. pose proof HR as (Hs & Hpv & Fh & Vh & Fe & Ve).
  pose proof Hs as (Ha & Hb & _). apply weight_val in Ha as [Fa Va]. apply weight_val in Hb as [Fb Vb].
  unfold compute_hz in Hc. cbn [hz_loop prev do_hz_init] in Hc.
  unfold time_sub in Hc. destruct (clock_eqb (clk now) (clk (prev r))); [|injection Hc as <- <-; auto].
  rewrite double_sign in Hc. destruct (Z.leb_spec (ns now - ns (prev r)) 0) as [|Hz]; [injection Hc as <- <-; auto|].
  assert (Hp : tick (ns now - ns (prev r))) by (apply int64_tick; auto; lia).
  set (p := (ns now - ns (prev r))%Z) in *.
  assert (Hnew : forall e, rate_ok (mkRate now (inv p) (error r) (conf r) false e)).
  { intros e. destruct (inv_val p Hp) as (Fi & _ & Vi). split; auto. split; auto. split; auto. split; [|auto].
    cbn [hz]. pose proof (bpow_gt_0 radix2 (-35)). assert (bpow radix2 30 <= bpow radix2 32) by (apply bpow_le; lia). lra. }
  cbn [fdiv fone fsecs fabs fsub fgt fmul fadd dops] in Hc. fold (inv p) in Hc.
  destruct (do_hz_init r); [injection Hc as <- <-; apply Hnew|].
  destruct (smooth_ok _ p _ Fa Va Hp Fh Vh) as [Fy Vy]. destruct (delta_ok _ p Hp Fh Vh) as (Fd & _ & Vd).
  destruct (do_error_init r).
  - injection Hc as <- <-. split; auto. split; auto. split; auto. split; auto. split; auto. cbn [error].
    assert (bpow radix2 32 <= bpow radix2 34) by (apply bpow_le; lia). lra.
  - destruct (SFltb _ _); injection Hc as <- <-; [apply Hnew|].
    destruct (error_ok _ _ _ Fb Vb Fd Vd Fe Ve) as [Fn Vn]. repeat (split; auto).
Qed.

Lemma new_rate_ok t cf : int64 (ns t) -> sensible cf -> rate_ok (new_rate dops t cf).
Proof.
  intros Ht Hc. pose proof (bpow_gt_0 radix2 32). pose proof (bpow_gt_0 radix2 34).
  repeat (split; auto using zero_fin); cbn; lra.
Qed.

(** ** Every history *)
Section Run.
Context {E : Type} (n : nat) (dflt : config double).
Hypothesis Hd : sensible dflt.
Notation run := (run (E := E) dops n dflt).
Notation init := (init (E := E) (D := double) n).

Lemma sensible_snoc (h : list (op E double)) o : sensible_history (h ++ [o]) ->
  sensible_history h /\ (forall i e t, o = Add i e t -> int64 (ns t)) /\ (forall cs, o = SetConfig cs -> Forall sensible cs).
Proof.
  intros [H1 H2]. split; [|split].
  - split; [intros i e t Hin; eapply H1|intros cs cf Hin; apply (H2 cs)]; eapply in_or_app; eauto.
  - intros i e t ->. eapply H1. apply in_or_app. right. left. reflexivity.
  - intros cs ->. apply Forall_forall. intros cf. apply H2. apply in_or_app. right. left. reflexivity.
Qed.

Lemma Forall_nth_error {A} (Q : A -> Prop) l i x : Forall Q l -> nth_error l i = Some x -> Q x.
Proof. intros H Hn. apply nth_error_In in Hn. rewrite Forall_forall in H. auto. Qed.
Lemma Forall_upd {A} (Q : A -> Prop) l i x : Forall Q l -> Q x -> Forall Q (upd i x l).
Proof. intros H. revert i. induction H; intros [|i] Hx; cbn; auto. Qed.

Lemma config_for_ok (s : state E double) i : Forall sensible (configs s) -> sensible (config_for n dflt s i).
Proof.
  intros H. unfold config_for. destruct (configs s) as [|c0 t] eqn:E0; auto.
  destruct (Nat.eqb_spec (length (c0 :: t)) n) as [El|].
  - destruct (nth_in_or_default i (c0 :: t) dflt) as [Hin| ->]; auto. rewrite Forall_forall in H. auto.
  - destruct t; auto. now inversion H.
Qed.

Lemma run_ok h s outs : well_indexed n h -> sensible_history h -> run init h = Ok (s, outs) ->
  Forall rate_ok (rates s) /\ Forall sensible (configs s).
Proof.
  revert s outs. induction h as [|o h IH] using rev_ind; intros s outs HW HS Hr.
  { injection Hr as <- <-. cbn. auto. }
  apply well_indexed_snoc in HW as [HW Ho]. apply sensible_snoc in HS as (HS & Hadd & Hset).
  rewrite run_snoc in Hr. destruct (run init h) as [[s1 o1]|] eqn:Hrh; [|discriminate]. cbn [bind] in Hr.
  destruct (IH s1 o1 HW HS eq_refl) as [HR HC]. destruct (run_inv dops n dflt h s1 o1 HW Hrh) as [HI _].
  destruct (step dops n dflt s1 o) as [[s2 o2]|] eqn:Hst; [|discriminate]. cbn in Hr. injection Hr as <- <-.
  destruct o as [i e t|cs]; cbn [step] in Hst.
  - specialize (Ho i e t eq_refl). specialize (Hadd i e t eq_refl).
    destruct (add_cases dops n dflt h s1 i e t HI Ho) as [(_ & Hs')|[(_ & _ & Hs')|(_ & _ & r & r' & b & x & Hn & Hc & Hs' & _)]];
      rewrite Hs' in Hst; [|discriminate|]; injection Hst as <- <-; cbn [rates configs]; split; auto.
    + apply Forall_app. split; auto. constructor; auto. apply new_rate_ok; auto. now apply config_for_ok.
    + apply Forall_upd; auto. apply (compute_hz_ok t r r' b); auto. now apply (Forall_nth_error _ (rates s1) i).
  - injection Hst as <- <-. cbn [rates configs]. split; auto.
Qed.

Lemma ok_comparable rs : Forall rate_ok rs -> comparable dops rs.
Proof.
  intros H. rewrite Forall_forall in H.
  assert (G : forall a b, In a rs -> In b rs -> fgt dops (hz a) (hz b) = Rlt_bool (val (hz b)) (val (hz a))).
  { intros a b Ha Hb. cbn [fgt dops]. apply ltb_val; apply H; auto. }
  split; [|split].
  - intros a Ha. rewrite G by auto. apply Rlt_bool_false. lra.
  - intros a b c Ha Hb Hc. rewrite !G by auto. intros H1 H2. apply Rlt_bool_true.
    revert H1 H2. case Rlt_bool_spec; [|discriminate]. intros H1 _. case Rlt_bool_spec; [|discriminate]. intros H2 _. lra.
  - intros a b c Ha Hb Hc. rewrite !G by auto. intros H1 H2. apply Rlt_bool_false.
    revert H1 H2. case Rlt_bool_spec; [discriminate|]. intros H1 _. case Rlt_bool_spec; [discriminate|]. intros H2 _. lra.
Qed.
End Run.
