(** Properties C30, C31 and C33 for the arithmetic of the code: durations scaled in long
    double. *)
From Coq Require Import List Arith ZArith Lia Bool.
From Verif Require Import Base RclTime Trace Approx_Model Approx_Spec Approx_Opt Approx_More Approx_Props ApproxScale_Model.
Import ListNotations.
Local Open Scope Z_scope.

(* ------------------------------------------------------------------ *)
Lemma nearest_even_bounds a b : 0 < b ->
  2 * b * nearest_even a b <= 2 * a + b /\ 2 * a - b <= 2 * b * nearest_even a b.
Proof.
  intros Hb. unfold nearest_even.
  pose proof (Z.div_mod a b ltac:(lia)) as H1. pose proof (Z.mod_pos_bound a b Hb) as H2.
  destruct (Z.ltb_spec (2 * (a mod b)) b); [nia|].
  destruct (Z.ltb_spec b (2 * (a mod b))); [nia|].
  destruct (Z.even (a / b)); nia.
Qed.

Lemma nearest_even_cases a b :
  nearest_even a b = a / b \/ (nearest_even a b = a / b + 1 /\ b <= 2 * (a mod b)).
Proof.
  unfold nearest_even. destruct (Z.ltb_spec (2 * (a mod b)) b); auto.
  destruct (Z.ltb_spec b (2 * (a mod b))); [right; split; lia|].
  destruct (Z.even (a / b)); auto.
Qed.

Lemma nearest_even_mono a a' b : 0 < b -> a <= a' -> nearest_even a b <= nearest_even a' b.
Proof.
  intros Hb Ha. pose proof (Z.div_le_mono a a' b Hb Ha) as Hq.
  destruct (Z.eq_dec (a / b) (a' / b)) as [E|E].
  - assert (a mod b <= a' mod b) as Hr.
    { pose proof (Z.div_mod a b ltac:(lia)). pose proof (Z.div_mod a' b ltac:(lia)). nia. }
    unfold nearest_even. rewrite <- E.
    destruct (Z.ltb_spec (2 * (a mod b)) b), (Z.ltb_spec (2 * (a' mod b)) b); try lia;
      destruct (Z.ltb_spec b (2 * (a mod b))), (Z.ltb_spec b (2 * (a' mod b))); try lia;
      destruct (Z.even (a / b)); lia.
  - destruct (nearest_even_cases a b) as [->|(-> & _)], (nearest_even_cases a' b) as [->|(-> & _)]; lia.
Qed.

(** Whole numbers are not changed. *)
Lemma nearest_even_whole k b : 0 < b -> nearest_even (k * b) b = k.
Proof.
  intros Hb. unfold nearest_even. rewrite Z.div_mul, Z.mod_mul by lia.
  destruct (Z.ltb_spec (2 * 0) b); [auto|lia].
Qed.

Section LD.
Variables (p b : Z).
Hypothesis Hp : 64 <= p.
Hypothesis Hb : 0 < b.
Notation ld a := (long_double_trunc p a b).

Lemma log2_small q : 0 <= q < 2 ^ 63 -> Z.log2 q <= 62.
Proof.
  intros H. destruct (Z.eq_dec q 0) as [->|]; [cbn; lia|].
  assert (Z.log2 q < 63); [|lia]. apply Z.log2_lt_pow2; lia.
Qed.

Lemma ld_lower a : 0 <= a -> a / b < 2 ^ 63 -> a / b <= ld a.
Proof.
  intros Ha Hq. unfold long_double_trunc. pose proof (Z.div_pos a b Ha Hb) as Hq0.
  pose proof (log2_small (a / b) ltac:(lia)) as HL. pose proof (Z.log2_nonneg (a / b)).
  set (s := p - 1 - Z.log2 (a / b)). assert (0 < 2 ^ s) as HS by (apply Z.pow_pos_nonneg; lia).
  apply Z.div_le_lower_bound; auto.
  rewrite <- (nearest_even_whole (2 ^ s * (a / b)) b Hb).
  apply nearest_even_mono; auto.
  pose proof (Z.mul_div_le a b ltac:(lia)). nia.
Qed.

Lemma ld_upper a : 0 <= a -> a / b < 2 ^ 63 -> 4 * b * ld a <= 4 * a + b.
Proof.
  intros Ha Hq. unfold long_double_trunc. pose proof (Z.div_pos a b Ha Hb) as Hq0.
  pose proof (log2_small (a / b) ltac:(lia)) as HL. pose proof (Z.log2_nonneg (a / b)).
  set (s := p - 1 - Z.log2 (a / b)).
  assert (2 ^ 1 <= 2 ^ s) as HS by (apply Z.pow_le_mono_r; lia). change (2 ^ 1) with 2 in HS.
  destruct (nearest_even_bounds (a * 2 ^ s) b Hb) as (HU & _).
  pose proof (Z.mul_div_le (nearest_even (a * 2 ^ s) b) (2 ^ s) ltac:(lia)) as HD.
  set (u := nearest_even (a * 2 ^ s) b) in *. set (S := 2 ^ s) in *.
  assert (2 * b * (S * (u / S)) <= 2 * (a * S) + b) as H1 by nia.
  assert (S * (4 * b * (u / S)) <= S * (4 * a + b)); [nia|].
  apply Z.mul_le_mono_pos_l with (p := S); lia.
Qed.

Lemma ld_pow a : 0 <= a -> a / b < 2 ^ 63 -> ld a <= 2 ^ (Z.log2 (a / b) + 1).
Proof.
  intros Ha Hq. unfold long_double_trunc. pose proof (Z.div_pos a b Ha Hb) as Hq0.
  pose proof (log2_small (a / b) ltac:(lia)) as HL. pose proof (Z.log2_nonneg (a / b)) as HL0.
  set (s := p - 1 - Z.log2 (a / b)). assert (0 < 2 ^ s) as HS by (apply Z.pow_pos_nonneg; lia).
  assert (a / b < 2 ^ (Z.log2 (a / b) + 1)) as Hlt.
  { destruct (Z.eq_dec (a / b) 0) as [->|]; [cbn; lia|].
    rewrite Z.add_1_r. apply Z.log2_spec. lia. }
  set (M := 2 ^ (Z.log2 (a / b) + 1)) in *.
  apply Z.div_le_upper_bound; auto.
  rewrite <- (nearest_even_whole (2 ^ s * M) b Hb). apply nearest_even_mono; auto.
  pose proof (Z.mul_succ_div_gt a b ltac:(lia)) as Hg.
  assert (a <= b * M) by nia. nia.
Qed.

Lemma ld_mono a a' : 0 <= a <= a' -> a' / b < 2 ^ 63 -> ld a <= ld a'.
Proof.
  intros Ha Hq'. pose proof (Z.div_le_mono a a' b Hb ltac:(lia)) as Hle.
  pose proof (Z.div_pos a b ltac:(lia) Hb) as Hq0.
  destruct (Z.eq_dec (Z.log2 (a / b)) (Z.log2 (a' / b))) as [E|E].
  - unfold long_double_trunc. rewrite <- E.
    pose proof (log2_small (a / b) ltac:(lia)) as HL.
    set (s := p - 1 - Z.log2 (a / b)). assert (0 < 2 ^ s) as HS by (apply Z.pow_pos_nonneg; lia).
    apply Z.div_le_mono; auto. apply nearest_even_mono; auto. nia.
  - pose proof (Z.log2_le_mono _ _ Hle) as Hl.
    pose proof (ld_pow a ltac:(lia) ltac:(lia)). pose proof (ld_lower a' ltac:(lia) Hq').
    assert (2 ^ (Z.log2 (a / b) + 1) <= 2 ^ Z.log2 (a' / b)) as H1 by (apply Z.pow_le_mono_r; lia).
    assert (0 < a' / b) as H2.
    { destruct (Z.eq_dec (a' / b) 0) as [E0|]; [|lia].
      exfalso. apply E. replace (a / b) with 0 by lia. now rewrite E0. }
    pose proof (Z.log2_spec (a' / b) H2). lia.
Qed.

(** Not beyond the greatest 64-bit integer, which is representable *)
Lemma ld_max a : 0 <= a -> a / b < 2 ^ 63 - 1 -> ld a <= 2 ^ 63 - 1.
Proof.
  intros Ha Hq. pose proof (Z.div_pos a b Ha Hb) as Hq0.
  destruct (Z.eq_dec (Z.log2 (a / b)) 62) as [E|E].
  - unfold long_double_trunc. rewrite E. set (s := p - 1 - 62).
    assert (0 < 2 ^ s) as HS by (apply Z.pow_pos_nonneg; lia).
    apply Z.div_le_upper_bound; auto.
    rewrite <- (nearest_even_whole (2 ^ s * (2 ^ 63 - 1)) b Hb). apply nearest_even_mono; auto.
    pose proof (Z.mul_succ_div_gt a b ltac:(lia)) as Hg.
    assert (a <= b * (2 ^ 63 - 1)) by nia. nia.
  - pose proof (ld_pow a Ha ltac:(lia)) as H1.
    pose proof (log2_small (a / b) ltac:(lia)). pose proof (Z.log2_nonneg (a / b)).
    assert (2 ^ (Z.log2 (a / b) + 1) <= 2 ^ 62) as H2 by (apply Z.pow_le_mono_r; lia).
    assert (2 ^ 62 <= 2 ^ 63 - 1) by (cbn; lia). lia.
Qed.
End LD.

(** The multiplication is a scaling: it rounds up by at most a quarter of a nanosecond. *)
Theorem C31_approx_long_double p num den : 64 <= p -> 0 < den -> den <= num ->
  scaling (den / 4) num den (scale_long_double p num den).
Proof.
  intros Hp Hd Hn.
  assert (0 <= den / 4 < den) as Ht by (split; [apply Z.div_pos; lia|apply Z.div_lt_upper_bound; lia]).
  assert (forall d, 0 <= d -> scale_long_double p num den d =
            if d * num / den <? 2 ^ 63 - 1 then long_double_trunc p (d * num) den else d * num / den) as HE.
  { intros d H. unfold scale_long_double. rewrite Z.abs_eq by auto.
    destruct (Z.eq_dec d 0) as [->|]; [|rewrite (Z.sgn_pos d) by lia; lia].
    rewrite Z.mul_0_l, Z.div_0_l by lia. cbn [Z.sgn]. rewrite Z.mul_0_l.
    replace (0 <? 2 ^ 63 - 1) with true by reflexivity.
    unfold long_double_trunc, nearest_even. rewrite Z.mul_0_l, Z.div_0_l, Z.mod_0_l by lia.
    cbn [Z.mul]. rewrite (proj2 (Z.ltb_lt 0 den)) by lia. now rewrite Z.div_0_l by (apply Z.pow_nonzero; cbn; lia). }
  assert (forall d, 0 <= d -> d * num < den * (scale_long_double p num den d + 1) /\
            den * scale_long_double p num den d <= d * num + den / 4) as HB.
  { intros d H. rewrite HE by auto. assert (0 <= d * num) as Ha by nia.
    pose proof (Z.mul_succ_div_gt (d * num) den ltac:(lia)) as H1.
    destruct (Z.ltb_spec (d * num / den) (2 ^ 63 - 1)) as [Hq|Hq].
    - pose proof (ld_lower p den Hp Hd (d * num) Ha ltac:(lia)) as H2.
      pose proof (ld_upper p den Hp Hd (d * num) Ha ltac:(lia)) as H3.
      split; [nia|].
      assert (den * long_double_trunc p (d * num) den - d * num <= den / 4); [|lia].
      apply Z.div_le_lower_bound; lia.
    - pose proof (Z.mul_div_le (d * num) den ltac:(lia)). split; lia. }
  split; auto.
  - intros d d' H. rewrite !HE by lia. assert (0 <= d * num <= d' * num) as Ha by nia.
    pose proof (Z.div_le_mono (d * num) (d' * num) den Hd ltac:(lia)) as Hle.
    destruct (Z.ltb_spec (d' * num / den) (2 ^ 63 - 1)) as [Hq|Hq].
    + destruct (Z.ltb_spec (d * num / den) (2 ^ 63 - 1)); [|lia].
      apply ld_mono; auto; lia.
    + destruct (Z.ltb_spec (d * num / den) (2 ^ 63 - 1)); [|lia].
      pose proof (ld_max p den Hp Hd (d * num) ltac:(lia) ltac:(lia)). lia.
  - intros d H.
    assert (scale_long_double p num den d = - scale_long_double p num den (- d)) as ->.
    { unfold scale_long_double. rewrite Z.abs_opp, Z.sgn_opp. lia. }
    destruct (HB (- d) ltac:(lia)) as (H1 & H2). nia.
Qed.

(** What is truncated is a number of [p] significant bits nearest to the product. *)
Theorem C31_approx_long_double_nearest p a b : 64 <= p -> 0 < b -> b <= a -> a / b < 2 ^ 63 ->
  exists u s, 0 < s /\ 2 ^ (p - 1) <= u <= 2 ^ p /\
    2 * Z.abs (b * u - a * 2 ^ s) <= b /\ long_double_trunc p a b = u / 2 ^ s.
Proof.
  intros Hp Hb Hab Hq. exists (nearest_even (a * 2 ^ (p - 1 - Z.log2 (a / b))) b), (p - 1 - Z.log2 (a / b)).
  assert (1 <= a / b) as Hq1 by (apply Z.div_le_lower_bound; lia).
  pose proof (log2_small (a / b) ltac:(lia)) as HL. pose proof (Z.log2_nonneg (a / b)) as HL0.
  pose proof (Z.log2_spec (a / b) ltac:(lia)) as (L1 & L2).
  set (l := Z.log2 (a / b)) in *. set (s := p - 1 - l).
  assert (0 < 2 ^ s) as HS by (apply Z.pow_pos_nonneg; lia).
  assert (2 ^ (p - 1) = 2 ^ s * 2 ^ l) as E1 by (rewrite <- Z.pow_add_r by lia; f_equal; lia).
  assert (2 ^ p = 2 ^ s * 2 ^ (Z.succ l)) as E2 by (rewrite <- Z.pow_add_r by lia; f_equal; lia).
  pose proof (Z.mul_div_le a b ltac:(lia)). pose proof (Z.mul_succ_div_gt a b ltac:(lia)).
  split; [lia|]. split; [|split].
  - rewrite E1, E2, <- (nearest_even_whole (2 ^ s * 2 ^ l) b Hb) at 1.
    rewrite <- (nearest_even_whole (2 ^ s * 2 ^ Z.succ l) b Hb).
    split; apply nearest_even_mono; auto; nia.
  - destruct (nearest_even_bounds (a * 2 ^ s) b Hb). lia.
  - reflexivity.
Qed.

Section Rounded.
Context {E : Type} (stamp : E -> Z).

(** C31 with the arithmetic of the code: no other set is better by more than a quarter of
    a nanosecond. *)
Theorem C31_approx_optimal_rounded c p num den F (h : list (nat * E)) s outs :
  (0 < n c)%nat -> (0 < queue_size c)%nat -> well_indexed (n c) h ->
  64 <= p -> 0 < den -> den <= num -> scale c = scale_long_double p num den ->
  respects stamp (n c) (bound c) F ->
  (forall i, (i < n c)%nat -> prefix (stream i h) (F i)) ->
  run stamp c (init c) h = Ok (s, outs) ->
  each_set (n c) (optimal_set stamp (n c) F num den (den / 4)) outs.
Proof.
  intros Hn Hq HI Hp Hd Hnd Hs HF HC Hr.
  eapply (C31_approx_optimal stamp c (den / 4)); eauto. rewrite Hs. now apply C31_approx_long_double.
Qed.

(** C30 and C33 with the arithmetic of the code. *)
Theorem C30_approx_max_interval_rounded c p num den (h : list (nat * E)) s outs X :
  (0 < n c)%nat -> (0 < queue_size c)%nat -> well_indexed (n c) h ->
  64 <= p -> 0 < den -> den <= num -> scale c = scale_long_double p num den ->
  run stamp c (init c) h = Ok (s, outs) -> In X outs -> span stamp X <= max_interval c.
Proof.
  intros Hn Hq HI Hp Hd Hnd Hs Hr HX.
  eapply (C30_approx_max_interval stamp c (den / 4)); eauto. rewrite Hs. now apply C31_approx_long_double.
Qed.

Theorem C33_approx_order_independent_rounded c1 c2 p num den F (h1 h2 : list (nat * E)) s1 s2 outs1 outs2 :
  (0 < n c1)%nat -> n c2 = n c1 -> (0 < queue_size c1)%nat -> (0 < queue_size c2)%nat ->
  max_interval c1 = max_interval c2 ->
  64 <= p -> 0 < den -> den <= num ->
  scale c1 = scale_long_double p num den -> scale c2 = scale_long_double p num den ->
  respects stamp (n c1) (bound c1) F -> respects stamp (n c1) (bound c2) F ->
  well_indexed (n c1) h1 -> well_indexed (n c1) h2 ->
  (forall i, (i < n c1)%nat -> prefix (stream i h1) (F i) /\ prefix (stream i h2) (F i)) ->
  no_overflow stamp c1 h1 -> no_overflow stamp c2 h2 ->
  run stamp c1 (init c1) h1 = Ok (s1, outs1) -> run stamp c2 (init c2) h2 = Ok (s2, outs2) ->
  prefix outs1 outs2 \/ prefix outs2 outs1.
Proof.
  intros Hn Hnn Hq1 Hq2 Hm Hp Hd Hnd E1 E2 HF1 HF2 HI1 HI2 HC N1 N2 R1 R2.
  eapply (C33_approx_order_independent stamp c1 c2 (den / 4) num den F h1 h2); eauto.
  - rewrite E1. now apply C31_approx_long_double.
  - intros d. now rewrite E1, E2.
Qed.
End Rounded.

(* ------------------------------------------------------------------ *)
(** The default age penalty 0.1: the double 1 + 0.1 is 2476979795053773 / 2^51. *)
Notation num11 := 2476979795053773.
Notation den11 := 2251799813685248.

Example default_second : scale_long_double 64 num11 den11 1000000000 = 1100000000.
Proof. vm_compute. reflexivity. Qed.
Example default_negative : scale_long_double 64 num11 den11 (-15) = -16.
Proof. vm_compute. reflexivity. Qed.
(** A long double does round up across a whole number: here the exact product is less than
    1238489897526881 (by 1/2^51). *)
Example default_rounds_up :
  scale_long_double 64 num11 den11 1125899906842619 = 1238489897526881 /\
  1125899906842619 * num11 / den11 = 1238489897526880 /\
  scale_long_double 113 num11 den11 1125899906842619 = 1238489897526880.
Proof. vm_compute. auto. Qed.

(** So a set that is better by less than a quarter of a nanosecond can be missed: with
    messages 14 days apart the set of the first two is output although the set of the last
    two, with the same pivot, is better. *)
Definition cfg_ld (mx : Z) : cfg := mkCfg 2 10 mx (scale_long_double 64 num11 den11) (fun _ => 1).
Notation P := 1238489897526881.
Notation D := 1125899906842619.
Notation days := [(0%nat, 0); (1%nat, P); (0%nat, P + D)].
Theorem C31_approx_exactly_optimal_refuted :
  exists s,
    run (fun z => z) (cfg_ld (2 ^ 62)) (init (cfg_ld (2 ^ 62))) days = Ok (s, [[0; P]]) /\
    better_by (fun z => z) num11 den11 0 [P + D; P] [0; P] /\
    ~ each_set 2 (optimal_set (fun z => z) 2 (fun i => stream i days) num11 den11 0) [[0; P]].
Proof.
  eexists. split; [vm_compute; reflexivity|].
  assert (better_by (fun z => z) num11 den11 0 [P + D; P] [0; P]) as HB by (vm_compute; reflexivity).
  split; [exact HB|].
  intros (base & H). inversion H as [|? x X outs ? HX HR]; subst. clear H HR.
  destruct HX as [A1 A2 (f & Fst & p & m & B1 & B2 & B3 & Hp & Hx & Hm & Ht & A3)].
  assert (p = 1%nat) as ->.
  { destruct p as [|[|]]; [|reflexivity|lia]. exfalso. cbn in Hm. injection Hm as <-.
    destruct B1 as (L1 & L2). specialize (L2 1%nat ltac:(lia)).
    destruct Fst as [|a [|b [|]]]; cbn in L1; try discriminate L1. cbn in Ht, L2.
    destruct (f 1%nat) as [|[|]]; cbn in L2; [|discriminate L2|discriminate L2].
    injection L2 as ->. lia. }
  cbn in Hm. injection Hm as <-.
  refine (A3 (fun i => match i with O => 1%nat | _ => O end) [P + D; P] _ _ _ HB).
  - split; [reflexivity|]. intros i Hi. destruct i as [|[|]]; [reflexivity|reflexivity|lia].
  - intros i Hi. lia.
  - cbn. lia.
Qed.

(** The example of Approx_Props.v with the arithmetic of the code *)
Example rounded_run :
  match run (fun z => z) (cfg_ld 1000000000) (init (cfg_ld 1000000000))
          [(0%nat, 0); (1%nat, 8); (0%nat, 10); (1%nat, 28); (0%nat, 30)] with
  | Ok (_, outs) => outs = [[10; 8]]
  | Err _ => False
  end.
Proof. vm_compute. reflexivity. Qed.
Example rounded_run_meets_hypotheses :
  (0 < n (cfg_ld 1000000000))%nat /\ (0 < queue_size (cfg_ld 1000000000))%nat /\ 64 <= 64 /\ 0 < den11 /\ den11 <= num11 /\
  well_indexed (n (cfg_ld 1000000000)) [(0%nat, 0); (1%nat, 8); (0%nat, 10); (1%nat, 28); (0%nat, 30)] /\
  respects (fun z => z) (n (cfg_ld 1000000000)) (bound (cfg_ld 1000000000))
    (fun i => match i with O => [0; 10; 30] | S O => [8; 28] | _ => [] end).
Proof.
  split; [cbn; lia|]. split; [cbn; lia|]. split; [lia|]. split; [lia|]. split; [lia|]. split.
  - intros i e H. cbn in *. repeat (destruct H as [H|H]; [injection H as <- _; lia|]). destruct H.
  - intros i Hi. cbn in Hi. split; [cbn; lia|]. intros k e e' H1 H2.
    destruct i as [|[|]]; [| |lia]; cbn in *;
      repeat (destruct k as [|k]; cbn in *; [injection H1 as <-; try injection H2 as <-; try discriminate; lia|]);
      try discriminate; destruct k; discriminate.
Qed.

Print Assumptions C31_approx_long_double.
Print Assumptions C31_approx_long_double_nearest.
Print Assumptions C31_approx_optimal_rounded.
Print Assumptions C31_approx_exactly_optimal_refuted.
Print Assumptions C30_approx_max_interval_rounded.
Print Assumptions C33_approx_order_independent_rounded.
