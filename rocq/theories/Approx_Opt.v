(** Spans, progress and optimality of ApproximateTime. *)
From Coq Require Import List Arith ZArith Lia Bool Permutation Sorted.
From Verif Require Import Base RclTime Trace Approx_Model Approx_Spec Approx_Proofs.
Import ListNotations.
Local Open Scope Z_scope.

(* ------------------------------------------------------------------ *)
(** Start and finish of a set *)
Section SF.
Context {E : Type} (stamp : E -> Z).

Lemma start_le (X : list E) e : In e X -> start stamp X <= stamp e.
Proof.
  induction X as [|x X IH]; cbn [In start]; [tauto|].
  intros [->|H]; destruct X; try lia; [destruct H|specialize (IH H); lia].
Qed.

Lemma finish_ge (X : list E) e : In e X -> stamp e <= finish stamp X.
Proof.
  induction X as [|x X IH]; cbn [In finish]; [tauto|].
  intros [->|H]; destruct X; try lia; [destruct H|specialize (IH H); lia].
Qed.

Lemma start_in (X : list E) : X <> [] -> exists e, In e X /\ stamp e = start stamp X.
Proof.
  induction X as [|x X IH]; [congruence|]. intros _. destruct X as [|y X].
  - exists x. cbn. auto.
  - destruct (IH ltac:(discriminate)) as (e & He & Es).
    change (start stamp (x :: y :: X)) with (Z.min (stamp x) (start stamp (y :: X))).
    destruct (Z.min_spec (stamp x) (start stamp (y :: X))) as [(_ & ->)|(_ & ->)].
    + exists x. cbn. auto.
    + exists e. split; auto. right; auto.
Qed.

Lemma finish_in (X : list E) : X <> [] -> exists e, In e X /\ stamp e = finish stamp X.
Proof.
  induction X as [|x X IH]; [congruence|]. intros _. destruct X as [|y X].
  - exists x. cbn. auto.
  - destruct (IH ltac:(discriminate)) as (e & He & Es).
    change (finish stamp (x :: y :: X)) with (Z.max (stamp x) (finish stamp (y :: X))).
    destruct (Z.max_spec (stamp x) (finish stamp (y :: X))) as [(_ & ->)|(_ & ->)].
    + exists e. split; auto. right; auto.
    + exists x. cbn. auto.
Qed.

Lemma start_finish (X : list E) : X <> [] -> start stamp X <= finish stamp X.
Proof.
  intros H. destruct (start_in X H) as (e & He & <-). now apply finish_ge.
Qed.

Lemma extremes_start_finish (hs : list E) ei et si st :
  extremes stamp hs ei et si st -> start stamp hs = st /\ finish stamp hs = et /\ st <= et.
Proof.
  intros [X1 X2 (a & A1 & A2) (b & B1 & B2) X5 _].
  assert (hs <> []) as Hne by (destruct hs; [cbn in X1; lia|discriminate]).
  assert (forall e, In e hs -> st <= stamp e <= et) as HA.
  { intros e He. apply In_nth_error in He as (k & Hk). eauto. }
  apply nth_error_In in A1, B1.
  split; [|split].
  - destruct (start_in hs Hne) as (e & He & Es). specialize (HA e He).
    pose proof (start_le hs b B1). lia.
  - destruct (finish_in hs Hne) as (e & He & Es). specialize (HA e He).
    pose proof (finish_ge hs a A1). lia.
  - specialize (HA a A1). lia.
Qed.

Lemma first_earliest_extremes (hs : list E) ei et si st :
  extremes stamp hs ei et si st -> exists e, first_earliest stamp hs si e.
Proof.
  intros [X1 X2 _ (b & B1 & B2) X5 X6]. exists b. split; auto.
  intros j e Hj. rewrite B2. split; [apply (X5 j e Hj)|]. intros H. apply (X6 j e H Hj).
Qed.
End SF.

(** No addition finds more than queue_size messages held after its search. *)
Definition no_overflow {E} (stamp : E -> Z) (c : cfg) (h : list (nat * E)) : Prop :=
  forall h1 i e h2, h = h1 ++ (i, e) :: h2 ->
  forall s o s1 o1, run stamp c (init c) h1 = Ok (s, o) -> add_process stamp c s i e = Ok (s1, o1) ->
    (length (nth i (pending s1) []) <= queue_size c)%nat.

(** Sets selected by positions, and the search of [found_set] *)
Section Sel.
Context {E : Type} (stamp : E -> Z) (n : nat) (F : nat -> list E) (sc : Z -> Z).
Notation selects := (selects n F).
Notation same := (same n).
Notation from := (from n).
Notation scan := (scan stamp n F sc).

Lemma selects_det x x' X X' :
  selects x X -> selects x' X' -> (forall i, (i < n)%nat -> x i = x' i) -> X = X'.
Proof.
  intros (L1 & S1) (L2 & S2) Heq.
  assert (forall i, nth_error X i = nth_error X' i) as HN.
  { intros i. destruct (lt_dec i n) as [Hi|Hi].
    - rewrite S1, S2, Heq by auto. reflexivity.
    - rewrite (proj2 (nth_error_None X i)), (proj2 (nth_error_None X' i)) by lia. reflexivity. }
  clear - HN. revert X' HN. induction X as [|a X IH]; intros [|b X'] HN; auto.
  - specialize (HN O). discriminate.
  - specialize (HN O). discriminate.
  - f_equal; [specialize (HN O); cbn in HN; congruence|]. apply IH. intros i. apply (HN (S i)).
Qed.

Lemma from_antisym x y : from x y -> from y x -> forall i, (i < n)%nat -> x i = y i.
Proof. intros H1 H2 i Hi. specialize (H1 i Hi). specialize (H2 i Hi). lia. Qed.

Lemma same_sym x y : same x y -> same y x.
Proof. intros H i Hi. symmetry. auto. Qed.
Lemma same_trans x y z : same x y -> same y z -> same x z.
Proof. intros H1 H2 i Hi. rewrite H1, H2; auto. Qed.
Lemma selects_ext x y X : same x y -> selects x X -> selects y X.
Proof. intros H (L & S1). split; auto. intros i Hi. rewrite <- H; auto. Qed.

Lemma scan_same f t k h x h' x' : scan f t k h x -> same h h' -> same x x' -> scan f t k h' x'.
Proof.
  intros H Hh Hx. inversion H as [? ? H1 H2|k0 h0 x0 i H0 e ? H0' ? X G1 G2 G3 G4 G5 G6 G7 G8 G9]; subst.
  - constructor; [apply same_trans with h|apply same_trans with x]; auto.
  - eapply (scan_move stamp n F sc f t k0 h0 x0 i H0 e h' H0' x' X); auto.
    + eapply same_trans; [apply same_sym|]; eauto.
    + eapply selects_ext; eauto.
    + destruct (_ <=? _).
      * eapply same_trans; [apply same_sym|]; eauto.
      * eapply same_trans; [apply same_sym; eauto|]. eapply same_trans; eauto.
Qed.

Lemma scan_from f f' t k : same f f' -> forall h x, scan f t k h x -> scan f' t k h x.
Proof.
  intros Hf. induction k as [|k IH]; intros h x H.
  - inversion H as [? ? H1 H2|]; subst. apply same_sym in Hf. constructor; eapply same_trans; eauto.
  - inversion H as [|k0 h0 x0 i H0 e ? H0' ? X G1 G2 G3 G4 G5 G6 G7 G8 G9]; subst.
    eapply scan_move; eauto.
Qed.

Lemma first_earliest_det H i e i' e' :
  first_earliest stamp H i e -> first_earliest stamp H i' e' -> i = i' /\ e = e'.
Proof.
  intros (A1 & A2) (B1 & B2). destruct (A2 _ _ B1) as (A3 & A4). destruct (B2 _ _ A1) as (B3 & B4).
  assert (i = i') as <- by (destruct (lt_eq_lt_dec i i') as [[H1|]|H1]; auto; lia).
  split; congruence.
Qed.

Lemma scan_det f t k : forall h x h' x',
  scan f t k h x -> scan f t k h' x' -> same h h' /\ same x x'.
Proof.
  induction k as [|k IH]; intros h x h' x' HA HB.
  - inversion HA as [? ? A1 A2|]; subst. inversion HB as [? ? B1 B2|]; subst.
    split; (eapply same_trans; [apply same_sym|]; eauto).
  - inversion HA as [|k0 h0 x0 i H0 e ? H0' ? X A1 A2 A3 A4 A5 A6 A7 A8 A9]; subst.
    inversion HB as [|k1 h1 x1 i1 H1 e1 ? H1' ? X1 B1 B2 B3 B4 B5 B6 B7 B8 B9]; subst.
    destruct (IH _ _ _ _ A1 B1) as (Eh & Ex).
    assert (H0 = H1) as <- by (eapply (selects_det h0 h1); eauto).
    destruct (first_earliest_det _ _ _ _ _ A3 B3) as (<- & <-).
    assert (same h h') as Hh.
    { intros j Hj. rewrite A6, B6 by auto. destruct (Nat.eq_dec i j); rewrite (Eh j Hj); auto. }
    split; auto.
    assert (H0' = H1') as <- by (eapply (selects_det h h'); eauto).
    assert (X = X1) as <- by (eapply (selects_det x0 x1); eauto).
    intros j Hj. rewrite A9, B9 by auto. destruct (_ <=? _); auto.
Qed.

(** Once no later set that includes the pivot can replace the favourite, it stays. *)
Lemma scan_stays f t k h0 x0 X0 H0 p m i0 e0 :
  scan f t k h0 x0 -> selects h0 H0 -> first_earliest stamp H0 i0 e0 -> selects x0 X0 ->
  (p < n)%nat -> nth_error (F p) (h0 p) = Some m -> stamp m = t ->
  (forall y Y, i0 <> p -> selects y Y ->
     from (fun j => if Nat.eq_dec i0 j then S (h0 j) else h0 j) y ->
     start stamp Y <= t <= finish stamp Y ->
     start stamp Y - start stamp X0 <= sc (finish stamp Y - finish stamp X0)) ->
  forall d h x, scan f t (k + d) h x ->
    same x0 x /\ h p = h0 p /\
    ((d = O /\ same h0 h) \/ from (fun j => if Nat.eq_dec i0 j then S (h0 j) else h0 j) h).
Proof.
  intros HS HH HE HX Hp Hm Ht HL. induction d as [|d IH]; intros h x Hs.
  - rewrite Nat.add_0_r in Hs. destruct (scan_det _ _ _ _ _ _ _ HS Hs) as (E1 & E2).
    split; auto. split; [symmetry; auto|]. left. auto.
  - rewrite Nat.add_succ_r in Hs.
    inversion Hs as [|k1 h1 x1 i H1 e ? H1' ? X A1 A2 A3 A4 A5 A6 A7 A8 A9]; subst.
    destruct (IH _ _ A1) as (Ex & Ep & Hd).
    assert (i <> p) as Hip.
    { intros ->. destruct A3 as (A3 & _). destruct A2 as (_ & A2). rewrite A2 in A3 by auto.
      rewrite Ep in A3. assert (e = m) as -> by congruence. lia. }
    assert (h p = h0 p) as Ehp.
    { rewrite A6 by auto. destruct (Nat.eq_dec i p); [congruence|auto]. }
    assert (i0 <> p /\ from (fun j => if Nat.eq_dec i0 j then S (h0 j) else h0 j) h) as (Hi0 & Hf).
    { assert (d = O /\ same h0 h1 -> i = i0) as Hi.
      { intros (_ & Hsm). assert (H0 = H1) as <- by (eapply (selects_det h0 h1); eauto).
        apply (first_earliest_det _ _ _ _ _ A3 HE). }
      destruct Hd as [Hd|Hd].
      - specialize (Hi Hd). subst i0. split; auto. intros j Hj. rewrite A6 by auto.
        destruct Hd as (_ & Hd). rewrite (Hd j Hj). destruct (Nat.eq_dec i j); lia.
      - split.
        + intros ->. specialize (Hd p Hp). cbn in Hd. destruct (Nat.eq_dec p p); [lia|congruence].
        + intros j Hj. specialize (Hd j Hj). cbn in Hd. rewrite A6 by auto.
          destruct (Nat.eq_dec i j), (Nat.eq_dec i0 j); lia. }
    split; [|split; auto].
    assert (X = X0) as -> by (eapply (selects_det x1 x0); eauto; apply same_sym; auto).
    assert (nth_error H1' p = Some m) as Hmp.
    { destruct A7 as (_ & A7). rewrite A7, Ehp by auto. exact Hm. }
    apply nth_error_In in Hmp.
    assert (start stamp H1' - start stamp X0 <= sc (finish stamp H1' - finish stamp X0)) as HLe.
    { apply (HL h H1'); auto. split; [apply start_le; auto|apply finish_ge; auto]. }
    apply Z.leb_le in HLe. rewrite HLe in A9. eapply same_trans; [|apply same_sym]; eauto.
Qed.
End Sel.

Section O.
Context {E : Type} (stamp : E -> Z) (c : cfg).
Notation state := (state E).
Notation N := (n c).
Notation start := (start stamp).
Notation finish := (finish stamp).
Variables (tol num den : Z).
Hypothesis SC : scaling tol num den (scale c).

Lemma scale_up d : d * num < den * (scale c d + 1).
Proof.
  destruct (Z.lt_ge_cases d 0) as [H|H].
  - apply (sc_neg _ _ _ _ SC d H).
  - apply (sc_nonneg _ _ _ _ SC d H).
Qed.

Lemma scale_nonneg d : 0 <= d -> 0 <= scale c d.
Proof.
  intros H. destruct (sc_nonneg _ _ _ _ SC d H) as (H1 & _).
  pose proof (sc_den _ _ _ _ SC). pose proof (sc_num _ _ _ _ SC). nia.
Qed.

Lemma scale_le d d' : d <= d' -> 0 <= d' -> scale c d <= scale c d'.
Proof.
  intros H1 H2. destruct (Z.lt_ge_cases d 0) as [H|H].
  - pose proof (scale_nonneg d' H2). pose proof (sc_neg _ _ _ _ SC d H). lia.
  - apply (sc_mono _ _ _ _ SC). lia.
Qed.

(** A bound established with an earlier end holds for every later end. *)
Lemma scale_bound B d d' : B <= scale c d -> d <= d' -> 0 <= d' -> den * B <= num * d' + tol.
Proof.
  intros H1 H2 H3. pose proof (sc_den _ _ _ _ SC). pose proof (sc_num _ _ _ _ SC). pose proof (sc_tol _ _ _ _ SC).
  destruct (Z.lt_ge_cases d 0) as [Hd|H'].
  - destruct (sc_neg _ _ _ _ SC d Hd) as (Hs & _). nia.
  - destruct (sc_nonneg _ _ _ _ SC d H') as (_ & H5).
    assert (den * B <= den * scale c d) by (apply Z.mul_le_mono_nonneg_l; lia). nia.
Qed.

Lemma scale_strict B d : scale c d < B -> num * d < den * B.
Proof.
  intros H. pose proof (scale_up d). pose proof (sc_den _ _ _ _ SC).
  assert (den * (scale c d + 1) <= den * B) by (apply Z.mul_le_mono_nonneg_l; lia). lia.
Qed.

(* ------------------------------------------------------------------ *)
(** Spans and progress, for arbitrary stamps *)
Definition SInv (s : state) : Prop :=
  match pivot s with
  | None => True
  | Some _ =>
      (exists cand, candidate s = Some cand /\ start cand = cstart s /\ finish cand = cend s) /\
      cstart s <= ptime s <= cend s /\
      (exists t0, ptime s - t0 <= max_interval c /\ num * (cend s - ptime s) <= den * (cstart s - t0)) /\
      forall i e, In e (pa s i) -> stamp e <= ptime s
  end.

Lemma choose_SInv hs ei et si st s :
  WF c s -> PInv stamp c s -> SInv s -> heads c s hs -> extremes stamp hs ei et si st ->
  (pivot s = None -> et - st <= max_interval c) ->
  let s1 := choose c hs st et ei s in
  SInv s1 /\ st <= ptime s1 <= et.
Proof.
  intros HW HP HS HH HX HM s1.
  destruct (extremes_start_finish stamp hs ei et si st HX) as (Est & Eet & Hle).
  unfold s1, choose. destruct (pivot s) as [p|] eqn:Ep.
  - unfold PInv in HP. rewrite Ep in HP. destruct HP as (Hp & HC & Hpp & x & Hx & Hpt).
    unfold SInv in HS. rewrite Ep in HS. destruct HS as (S1 & S2 & (t0 & S3 & S4) & S5).
    assert (st <= ptime s <= et) as Hpte.
    { destruct HH as (HL & HH). rewrite <- HH in Hx by auto.
      pose proof (ex_all _ _ _ _ _ _ HX p x Hx). lia. }
    destruct (better_heads c s st et) eqn:Eb.
    + split; [|exact Hpte]. unfold SInv. cbn. split; [exists hs; auto|]. split; [lia|]. split.
      * exists t0. split; auto. unfold better_heads in Eb. rewrite negb_true_iff, Z.leb_gt in Eb.
        apply scale_strict in Eb. lia.
      * intros i e He. unfold pa in He. cbn in He. rewrite nth_map_nil in He. destruct He.
    + split; [|exact Hpte]. unfold SInv. rewrite Ep. split; auto. split; auto. split; eauto.
  - cbn. split; [|lia]. unfold SInv. cbn. split; [exists hs; auto|]. split; [lia|]. split.
    + exists st. split; [auto|lia].
    + intros i e He. unfold pa in He. cbn in He. rewrite nth_map_nil in He. destruct He.
Qed.

Lemma SInv_span s cand : SInv s -> pivot s <> None -> candidate s = Some cand ->
  span stamp cand <= max_interval c.
Proof.
  intros HS Hp Hc. unfold SInv in HS. destruct (pivot s); [|congruence].
  destruct HS as ((cand' & C1 & C2 & C3) & S2 & (t0 & S3 & S4) & S5).
  assert (cand' = cand) as -> by congruence. unfold span. rewrite C2, C3.
  pose proof (sc_den _ _ _ _ SC). pose proof (sc_num _ _ _ _ SC). nia.
Qed.

Lemma step_SInv s hs ei et si st s' o :
  WF c s -> PInv stamp c s -> SInv s -> heads c s hs -> extremes stamp hs ei et si st ->
  step_kind stamp c s hs ei et si st s' o ->
  SInv s' /\ Forall (fun X => span stamp X <= max_interval c) o.
Proof.
  intros HW HP HS HH HX HK.
  set (s0 := clear_dropped ei s) in *.
  assert (WF c s0) as HW0 by (now apply clear_WF).
  assert (PInv stamp c s0) as HP0 by (now apply clear_PInv).
  assert (SInv s0) as HS0 by exact HS.
  assert (heads c s0 hs) as HH0 by exact HH.
  set (s1 := choose c hs st et ei s0) in *.
  assert (WF c s1) as HW1 by (now apply choose_WF).
  assert (si < N)%nat as Hsi by (destruct HX, HH; lia).
  assert (forall s2, s2 = mv si s1 -> (pivot s = None -> et - st <= max_interval c) -> SInv s2) as Hmv.
  { intros s2 -> HM.
    destruct (choose_SInv hs ei et si st s0 HW0 HP0 HS0 HH0 HX HM) as (HS1 & HT). fold s1 in HS1, HT.
    unfold SInv in *. cbn [mv set_queues pivot candidate cstart cend ptime] in *.
    destruct (pivot s1); auto. destruct HS1 as (A & B & C & D).
    split; auto. split; auto. split; auto.
    intros i e He. destruct HW1 as [W1 W2 _ _].
    fold (mv si s1) in He. rewrite (mv_pa c) in He by auto. destruct (Nat.eq_dec si i) as [->|]; [|eauto].
    apply in_app_or in He as [He|He]; [eauto|].
    unfold s1, dq in He. rewrite choose_dq in He. cbn [s0 clear_dropped deques] in He.
    fold (dq s i) in He. destruct HH as (HL & HH). specialize (HH i Hsi).
    destruct (ex_st _ _ _ _ _ _ HX) as (y & Y1 & Y2). rewrite HH in Y1.
    destruct (dq s i) as [|z q]; [discriminate|]. cbn in He, Y1. destruct He as [->|[]].
    injection Y1 as ->. lia. }
  destruct HK as [Hpv Hc | p cand Hc s2 Hp2 Hc2 HJ | p Hc s2 Hp2 Hne Hag].
  - split; [|constructor]. unfold SInv. cbn. rewrite Hpv. auto.
  - fold s0 s1 in s2. specialize (Hmv s2 eq_refl ltac:(intros; now apply Hc)).
    split; [exact I|]. constructor; [|constructor].
    eapply SInv_span; eauto. congruence.
  - split; [|constructor]. apply Hmv; auto. intros; now apply Hc.
Qed.

Lemma steps_SInv s o s' :
  steps stamp c s o s' -> SInv s ->
  SInv s' /\ Forall (fun X => span stamp X <= max_interval c) o.
Proof.
  induction 1 as [s|s hs ei et si st s1 o1 s2 o2 HW HP Hnum HH HX HK HSt IH]; intros HS.
  - split; auto.
  - destruct (step_SInv _ _ _ _ _ _ _ _ HW HP HS HH HX HK) as (HS1 & HF1).
    destruct (IH HS1) as (HS2 & HF2). split; auto. apply Forall_app; auto.
Qed.

Lemma run_SInv h s outs :
  (0 < N)%nat -> (0 < queue_size c)%nat -> (forall i e, In (i, e) h -> (i < N)%nat) ->
  run stamp c (init c) h = Ok (s, outs) ->
  SInv s /\ Forall (fun X => span stamp X <= max_interval c) outs.
Proof.
  intros Hn Hq HI Hr. revert h HI s outs Hr. apply run_invariant; auto.
  - split; [exact I|constructor].
  - intros h s outs i e s1 o1 s2 o2 Hr HInv (HS & HF) Hi E1 E2 J1 J2 A B.
    assert (SInv (push i e s)) as HSp by exact HS.
    assert (SInv s1 /\ Forall (fun X => span stamp X <= max_interval c) o1) as (HS1 & HF1).
    { destruct A as [(w & -> & ->)|A]; [split; [exact HSp|constructor]|].
      eapply steps_SInv; eauto. }
    assert (SInv s2 /\ Forall (fun X => span stamp X <= max_interval c) o2) as (HS2 & HF2).
    { destruct B as [(_ & -> & ->)|(_ & B)]; [split; [exact HS1|constructor]|].
      eapply steps_SInv; eauto. exact I. }
    split; auto. apply Forall_app. split; auto. apply Forall_app; auto.
Qed.

(* ------------------------------------------------------------------ *)
(** Optimality, for time-ordered streams that respect the lower bounds *)
Variable F : nat -> list E.
Hypothesis HF : respects stamp N (bound c) F.
Hypothesis Hn : (0 < N)%nat.
(** [strict]: no message was dropped because of a full queue. *)
Variable strict : Prop.

Notation selects := (selects N F).
Notation from := (from N).

Lemma nth_error_skipn {A} (l : list A) a k : nth_error (skipn a l) k = nth_error l (a + k).
Proof. revert l; induction a; destruct l; cbn; auto. destruct k; auto. Qed.

Lemma spaced_lt i k l e e' : (i < N)%nat -> (k < l)%nat ->
  nth_error (F i) k = Some e -> nth_error (F i) l = Some e' -> stamp e + bound c i <= stamp e'.
Proof.
  intros Hi Hkl He. destruct (HF i Hi) as (Hb & Hs). revert e'.
  induction Hkl as [|l Hkl IH]; intros e' He'.
  - eapply Hs; eauto.
  - destruct (nth_error (F i) l) as [m|] eqn:Em.
    + specialize (IH m eq_refl). pose proof (Hs l m e' Em He'). lia.
    + apply nth_error_None in Em.
      assert (S l < length (F i))%nat by (apply nth_error_Some; congruence). lia.
Qed.

Lemma mono i k l e e' : (i < N)%nat -> (k <= l)%nat ->
  nth_error (F i) k = Some e -> nth_error (F i) l = Some e' -> stamp e <= stamp e'.
Proof.
  intros Hi Hkl He He'. destruct (Nat.eq_dec k l) as [->|Hne].
  - replace e' with e by congruence. lia.
  - pose proof (spaced_lt i k l e e' Hi ltac:(lia) He He'). destruct (HF i Hi). lia.
Qed.

Lemma selects_at y Y i : selects y Y -> (i < N)%nat ->
  exists e, nth_error (F i) (y i) = Some e /\ nth_error Y i = Some e /\ In e Y.
Proof.
  intros (HL & HS) Hi. specialize (HS i Hi).
  destruct (nth_error Y i) as [e|] eqn:Ee.
  - exists e. split; auto. split; auto. eapply nth_error_In; eauto.
  - apply nth_error_None in Ee. lia.
Qed.

Lemma selects_in y Y e : selects y Y -> In e Y ->
  exists i, (i < N)%nat /\ nth_error (F i) (y i) = Some e.
Proof.
  intros (HL & HS) He. apply In_nth_error in He as (i & Hi).
  assert (i < N)%nat by (rewrite <- HL; apply nth_error_Some; congruence).
  exists i. split; auto. rewrite <- HS; auto.
Qed.

Lemma selects_ne y Y : selects y Y -> Y <> [].
Proof. intros (HL & _). destruct Y; [cbn in HL; lia|discriminate]. Qed.

Lemma selects_mono x X y Y : selects x X -> selects y Y -> from x y ->
  start X <= start Y /\ finish X <= finish Y.
Proof.
  intros HX HY Hxy. split.
  - destruct (start_in stamp Y (selects_ne _ _ HY)) as (e & He & <-).
    destruct (selects_in _ _ _ HY He) as (i & Hi & Ei).
    destruct (selects_at _ _ i HX Hi) as (d & D1 & _ & D3).
    pose proof (start_le stamp X d D3). pose proof (mono i (x i) (y i) d e Hi (Hxy i Hi) D1 Ei). lia.
  - destruct (finish_in stamp X (selects_ne _ _ HX)) as (e & He & <-).
    destruct (selects_in _ _ _ HX He) as (i & Hi & Ei).
    destruct (selects_at _ _ i HY Hi) as (d & D1 & _ & D3).
    pose proof (finish_ge stamp Y d D3). pose proof (mono i (x i) (y i) e d Hi (Hxy i Hi) Ei D1). lia.
Qed.

Lemma selects_exists z : (forall i, (i < N)%nat -> nth_error (F i) (z i) <> None) ->
  exists Z0, selects z Z0.
Proof.
  unfold Approx_Spec.selects. generalize N. clear. intros m H. induction m as [|k IH].
  - exists []. split; auto. intros; lia.
  - destruct IH as (Z0 & HL & HZ). { intros i Hi. apply H. lia. }
    destruct (nth_error (F k) (z k)) as [e|] eqn:Ee; [|exfalso; apply (H k); auto].
    exists (Z0 ++ [e]). split; [rewrite app_length; cbn; lia|].
    intros i Hi. destruct (Nat.eq_dec i k) as [->|Hne].
    + rewrite nth_error_app2 by lia. rewrite HL, Nat.sub_diag. cbn. auto.
    + rewrite nth_error_app1 by lia. apply HZ. lia.
Qed.

Lemma selects_join a A y Y : selects a A -> selects y Y ->
  exists Z0, selects (fun i => Nat.max (a i) (y i)) Z0 /\ start Y <= start Z0 /\
    finish Z0 <= Z.max (finish A) (finish Y) /\ finish Y <= finish Z0 /\
    start Z0 <= Z.max (finish A) (start Y).
Proof.
  intros HA HY.
  destruct (selects_exists (fun i => Nat.max (a i) (y i))) as (Z0 & HZ).
  { intros i Hi. destruct (selects_at _ _ i HA Hi) as (e & E1 & _).
    destruct (selects_at _ _ i HY Hi) as (d & D1 & _).
    destruct (Nat.max_spec (a i) (y i)) as [(_ & ->)|(_ & ->)]; congruence. }
  exists Z0. split; auto.
  destruct (selects_mono y Y _ Z0 HY HZ) as (M1 & M2). { intros i Hi. cbn. lia. }
  split; auto. split; [|split; auto].
  - destruct (finish_in stamp Z0 (selects_ne _ _ HZ)) as (e & He & <-).
    destruct (selects_in _ _ _ HZ He) as (i & Hi & Ei).
    destruct (Nat.max_spec (a i) (y i)) as [(_ & Em)|(_ & Em)]; rewrite Em in Ei.
    + destruct (selects_at _ _ i HY Hi) as (d & D1 & _ & D3).
      assert (d = e) as -> by congruence. pose proof (finish_ge stamp Y e D3). lia.
    + destruct (selects_at _ _ i HA Hi) as (d & D1 & _ & D3).
      assert (d = e) as -> by congruence. pose proof (finish_ge stamp A e D3). lia.
  - destruct (start_in stamp Y (selects_ne _ _ HY)) as (e & He & <-).
    destruct (selects_in _ _ _ HY He) as (i & Hi & Ei).
    destruct (selects_at _ _ i HZ Hi) as (z & Z1 & _ & Z3).
    pose proof (start_le stamp Z0 z Z3).
    destruct (Nat.max_spec (a i) (y i)) as [(_ & Em)|(_ & Em)]; rewrite Em in Z1.
    + assert (z = e) as -> by congruence. lia.
    + destruct (selects_at _ _ i HA Hi) as (d & D1 & _ & D3).
      assert (d = z) as -> by congruence. pose proof (finish_ge stamp A z D3). lia.
Qed.

Lemma from_dec x y : {from x y} + {~ from x y}.
Proof.
  destruct (forallb (fun i => Nat.leb (x i) (y i)) (seq 0 N)) eqn:Ef.
  - left. intros i Hi. rewrite forallb_forall in Ef.
    specialize (Ef i ltac:(apply in_seq; lia)). now apply Nat.leb_le.
  - right. intros H. assert (forallb (fun i => Nat.leb (x i) (y i)) (seq 0 N) = true); [|congruence].
    apply forallb_forall. intros i Hi. apply in_seq in Hi. apply Nat.leb_le. apply H. lia.
Qed.

Lemma skipn_skipn_add {A} (l : list A) a k : skipn k (skipn a l) = skipn (a + k) l.
Proof. revert l; induction a; destruct l; cbn; auto. now rewrite skipn_nil. Qed.

(** Positions of the messages held: [b i] is the position of the first message held
    for input [i], [U i] the messages not received yet. *)
Definition pos (b : nat -> nat) (U : nat -> list E) (s : state) : Prop :=
  forall i, (i < N)%nat -> skipn (b i) (F i) = pend s i ++ U i.
Definition cur (b : nat -> nat) (s : state) (i : nat) : nat := (b i + length (pa s i))%nat.

Definition AsGood (cs ce : Z) (Y : list E) : Prop :=
  den * (start Y - cs) <= num * (finish Y - ce) + tol.
Definition StrictlyBetter (cs ce : Z) (Y : list E) : Prop :=
  den * (start Y - cs) < num * (finish Y - ce) + tol.

(** Not starting late enough to replace a candidate from [cs] to [ce] *)
Definition Loses (cs ce : Z) (Y : list E) : Prop := start Y - cs <= scale c (finish Y - ce).
Lemma Loses_AsGood cs ce Y : 0 <= finish Y - ce -> Loses cs ce Y -> AsGood cs ce Y.
Proof. intros H1 H2. apply (scale_bound _ (finish Y - ce)); auto. lia. Qed.

Definition admissible_from (base a : nat -> nat) : Prop :=
  forall y Y, selects y Y -> from base y -> span stamp Y <= max_interval c -> from a y.

Record NInv U base b (s : state) : Prop := {
  ni_pos : pos b U s;
  ni_base : from base b;
  ni_adm : strict -> admissible_from base b
}.

Record OInv U base b a p (s : state) : Prop := {
  oi_pos : pos b U s;
  oi_base : from base a;
  oi_ab : from a b;
  oi_A : exists A, selects a A /\ finish A = ptime s /\
           (strict -> span stamp A <= max_interval c) /\
           (from b a \/ num * (cend s - finish A) < den * (cstart s - start A));
  oi_p : a p = b p;
  oi_kept : forall y Y, selects y Y -> from a y -> ~ from (cur b s) y -> AsGood (cstart s) (cend s) Y;
  oi_least : forall y Y, selects y Y -> from a y -> ~ from b y -> StrictlyBetter (cstart s) (cend s) Y;
  oi_adm : strict -> admissible_from base a
}.

(** The search of [found_set] is about to move on to the current heads. *)
Definition Pending (b a : nat -> nat) (s : state) : Prop :=
  exists k h H i e, scan stamp N F (scale c) a (ptime s) k h b /\ selects h H /\
    first_earliest stamp H i e /\ (i < N)%nat /\ stamp e < ptime s /\
    same N (cur b s) (fun j => if Nat.eq_dec i j then S (h j) else h j).

Definition GInv U base (s : state) : Prop :=
  (strict -> forall i, nth i (dropped s) false = false) /\
  match pivot s with
  | None => exists b, NInv U base b s
  | Some p => cstart s < ptime s /\ exists b a, OInv U base b a p s /\ Pending b a s
  end.

Lemma pos_head b U s i x : pos b U s -> (i < N)%nat -> hd_error (dq s i) = Some x ->
  nth_error (F i) (cur b s i) = Some x.
Proof.
  intros HP Hi Hx. unfold cur. rewrite <- nth_error_skipn, (HP i Hi). unfold pend.
  rewrite <- app_assoc, nth_error_app2, Nat.sub_diag by lia.
  destruct (dq s i); cbn in *; [discriminate|auto].
Qed.

Lemma pos_first b U s i x : pos b U s -> (i < N)%nat -> hd_error (pend s i) = Some x ->
  nth_error (F i) (b i) = Some x.
Proof.
  intros HP Hi Hx. rewrite <- (Nat.add_0_r (b i)), <- nth_error_skipn, (HP i Hi).
  destruct (pend s i); cbn in *; [discriminate|auto].
Qed.

Lemma heads_selects b U s hs : pos b U s -> heads c s hs -> selects (cur b s) hs.
Proof.
  intros HP (HL & HH). split; auto. intros i Hi. rewrite HH by auto. symmetry.
  destruct (nth_error hs i) as [x|] eqn:Ex.
  - rewrite HH in Ex by auto. rewrite Ex. eapply pos_head; eauto.
  - apply nth_error_None in Ex. lia.
Qed.

Lemma candidate_selects b U s cand : pos b U s -> has_candidate c s -> candidate s = Some cand ->
  selects b cand.
Proof.
  intros HP (cand' & C1 & C2 & C3) Hc. assert (cand' = cand) as -> by congruence.
  split; auto. intros i Hi. rewrite C3 by auto. symmetry.
  destruct (nth_error cand i) as [x|] eqn:Ex.
  - rewrite C3 in Ex by auto. rewrite Ex. eapply pos_first; eauto.
  - apply nth_error_None in Ex. lia.
Qed.

(** A set from the heads on that uses the head of input [k] is no better than the heads. *)
Lemma leave x X y Y k m : selects x X -> selects y Y -> from x y -> (k < N)%nat -> y k = x k ->
  nth_error X k = Some m -> start Y <= stamp m /\ finish X <= finish Y.
Proof.
  intros HX HY Hxy Hk Eq Em. split; [|eapply selects_mono; eauto].
  destruct (selects_at _ _ k HY Hk) as (e & E1 & _ & E3).
  destruct (selects_at _ _ k HX Hk) as (d & D1 & D2 & _).
  rewrite Eq in E1. assert (e = m) as -> by congruence. now apply start_le.
Qed.

Lemma from_refl x : from x x. Proof. intros i Hi. lia. Qed.
Lemma from_trans x y z : from x y -> from y z -> from x z.
Proof. intros H1 H2 i Hi. specialize (H1 i Hi). specialize (H2 i Hi). lia. Qed.
Lemma from_cur b s : from b (cur b s).
Proof. intros i Hi. unfold cur. lia. Qed.

(** Choosing or keeping the candidate. *)
Lemma choose_O U base hs ei et si st s :
  WF c s -> PInv stamp c s -> SInv s -> GInv U base s -> heads c s hs -> extremes stamp hs ei et si st ->
  (pivot s = None -> et - st <= max_interval c) ->
  let s1 := choose c hs st et ei s in
  exists b a p, pivot s1 = Some p /\ OInv U base b a p s1 /\ selects (cur b s1) hs /\
    Loses (cstart s1) (cend s1) hs /\ cend s1 <= et /\
    exists k, scan stamp N F (scale c) a (ptime s1) k (cur b s1) b.
Proof.
  intros HW HP HS (HD & HG) HH HX HM s1.
  destruct (extremes_start_finish stamp hs ei et si st HX) as (Est & Eet & Hle).
  pose proof (sc_den _ _ _ _ SC) as Hden. pose proof (sc_num _ _ _ _ SC) as Hnum.
  pose proof (sc_tol _ _ _ _ SC) as Htol.
  unfold s1, choose. destruct (pivot s) as [p|] eqn:Ep.
  - destruct HG as (_ & b & a & [O1 O2 O3 O4 O5 O6 O7 O8] & k & h & H & i0 & e0 & K1 & K2 & K3 & K4 & K5 & K6).
    pose proof (heads_selects b U s hs O1 HH) as HSel.
    unfold PInv in HP. rewrite Ep in HP. destruct HP as (Hp & HC & Hpp & x & Hx & Hpt).
    unfold SInv in HS. rewrite Ep in HS. destruct HS as ((cand & S1 & S2 & S3) & S4 & S5 & S6).
    pose proof (candidate_selects b U s cand O1 HC S1) as HSc.
    destruct (selects_mono _ _ _ _ HSc HSel (from_cur b s)) as (M1 & M2).
    assert (forall x', same N x' (if st - cstart s <=? scale c (et - cend s) then b else cur b s) ->
              scan stamp N F (scale c) a (ptime s) (S k) (cur b s) x') as HScan.
    { intros x' Hx'. eapply scan_move; eauto. now rewrite S2, S3, Est, Eet. }
    rewrite S2, S3, Est, Eet in *.
    destruct (better_heads c s st et) eqn:Eb; unfold better_heads in Eb.
    + rewrite negb_true_iff in Eb. rewrite Eb in HScan. rewrite Z.leb_gt in Eb.
      apply scale_strict in Eb.
      set (s' := mkState _ _ _ _ _ _ _ _ _ _).
      assert (forall i, pa s' i = []) as Hpa by (intros i; apply nth_map_nil).
      assert (forall i, cur (cur b s) s' i = cur b s i) as Hcur
        by (intros i; unfold cur at 1; rewrite Hpa; cbn [length]; lia).
      assert (forall y Y, selects y Y -> from a y -> ~ from (cur b s) y -> StrictlyBetter st et Y) as HSt.
      { intros y Y HY Hay Hny. specialize (O6 y Y HY Hay Hny). unfold AsGood in O6. unfold StrictlyBetter. nia. }
      exists (cur b s), a, p. split; auto. split; [split|split; [|split; [|split]]].
      * intros i Hi. unfold pend. rewrite Hpa. cbn [app]. change (dq s' i) with (dq s i).
        unfold cur. rewrite <- skipn_skipn_add, (O1 i Hi). unfold pend.
        rewrite <- app_assoc, skipn_app, skipn_all, Nat.sub_diag. reflexivity.
      * exact O2.
      * eapply from_trans; [exact O3|apply from_cur].
      * destruct O4 as (A & A1 & A2 & A3 & A4). exists A. split; auto. split; auto. split; auto.
        right. cbn [s' cstart cend]. destruct A4 as [A4|A4]; [|lia].
        assert (A = cand) as ->; [|rewrite S2, S3; lia].
        apply (selects_det N F a b); auto. intros i Hi. specialize (A4 i Hi). specialize (O3 i Hi). lia.
      * rewrite O5. unfold cur. rewrite Hpp. cbn. lia.
      * intros y Y HY Hay Hny. cbn [s' cstart cend].
        assert (StrictlyBetter st et Y) as Hsb; [|unfold StrictlyBetter, AsGood in *; lia].
        apply (HSt y Y); auto. intros Hf. apply Hny. intros i Hi. rewrite Hcur. auto.
      * exact HSt.
      * exact O8.
      * destruct HSel as (L1 & L2). split; auto. intros i Hi. rewrite Hcur. auto.
      * unfold Loses. cbn [s' cstart cend]. rewrite Est, Eet, !Z.sub_diag. apply scale_nonneg. lia.
      * cbn. lia.
      * exists (S k). eapply scan_same; [apply (HScan (cur b s))| |].
        -- intros i Hi. reflexivity.
        -- intros i Hi. now rewrite Hcur.
        -- intros i Hi. reflexivity.
    + rewrite negb_false_iff in Eb. rewrite Eb in HScan. rewrite Z.leb_le in Eb.
      exists b, a, p. split; auto. split; [split; auto|]. split; auto.
      split; [|split; [lia|]].
      * unfold Loses. now rewrite Est, Eet.
      * exists (S k). apply HScan. intros i Hi. reflexivity.
  - destruct HG as (b & [O1 O2 O3]). unfold PInv in HP. rewrite Ep in HP.
    set (s' := mkState _ _ _ _ _ _ _ _ _ _).
    assert (forall i, pa s' i = []) as Hpa by (intros i; apply nth_map_nil).
    assert (forall i, cur b s' i = b i) as Hcur
      by (intros i; unfold cur at 1; rewrite Hpa; cbn [length]; lia).
    pose proof (heads_selects b U s hs O1 HH) as HSel.
    assert (selects b hs) as HSb.
    { destruct HSel as (L1 & L2). split; auto. intros i Hi. rewrite L2 by auto. unfold cur.
      rewrite HP. cbn [length]. now rewrite Nat.add_0_r. }
    exists b, b, ei. split; auto. split; [split|split; [|split; [|split]]].
    + intros i Hi. rewrite (O1 i Hi). unfold pend. rewrite Hpa, HP. reflexivity.
    + exact O2.
    + apply from_refl.
    + exists hs. split; auto. split; [exact Eet|].
      split; [intros _; unfold span; rewrite Est, Eet; auto|]. left. apply from_refl.
    + reflexivity.
    + intros y Y HY Hay Hny. exfalso. apply Hny. intros i Hi. rewrite Hcur. auto.
    + intros y Y HY Hay Hny. contradiction.
    + exact O3.
    + destruct HSb as (L1 & L2). split; auto. intros i Hi. rewrite Hcur. auto.
    + unfold Loses. cbn [s' cstart cend]. rewrite Est, Eet, !Z.sub_diag. apply scale_nonneg. lia.
    + cbn. lia.
    + exists O. apply scan_start; [intros i Hi; now rewrite Hcur|intros i Hi; reflexivity].
Qed.

(** Moving the earliest head to the past. *)
Lemma mv_O U base b a p hs ei et si st s1 :
  WF c s1 -> OInv U base b a p s1 -> selects (cur b s1) hs -> extremes stamp hs ei et si st ->
  AsGood (cstart s1) (cend s1) hs ->
  OInv U base b a p (mv si s1) /\
  (forall y Y, selects y Y -> from a y -> ~ from (cur b (mv si s1)) y ->
     AsGood (cstart s1) (cend s1) Y).
Proof.
  intros HW [O1 O2 O3 O4 O5 O6 O7 O8] HSel HX HAG.
  destruct (extremes_start_finish stamp hs ei et si st HX) as (Est & Eet & Hle).
  pose proof (sc_den _ _ _ _ SC) as Hden. pose proof (sc_num _ _ _ _ SC) as Hnum.
  assert (si < N)%nat as Hsi by (destruct HX, HSel; lia).
  assert (forall y Y, selects y Y -> from a y -> ~ from (cur b (mv si s1)) y ->
     AsGood (cstart s1) (cend s1) Y) as HA.
  { intros y Y HY Hay Hny. destruct (from_dec (cur b s1) y) as [Hf|Hf]; [|eauto].
    destruct (Nat.eq_dec (y si) (cur b s1 si)) as [Eq|Hne].
    - destruct (ex_st _ _ _ _ _ _ HX) as (m & Em & Hm).
      destruct (leave _ _ _ _ si m HSel HY Hf Hsi Eq Em) as (L1 & L2).
      unfold AsGood in *. rewrite Est, Eet in HAG. rewrite Eet in L2. nia.
    - exfalso. apply Hny. intros i Hi. specialize (Hf i Hi). unfold cur in *.
      destruct HW as [W1 W2 _ _].
      rewrite (mv_pa c) by auto. destruct (Nat.eq_dec si i) as [<-|]; auto.
      rewrite app_length. destruct (dq s1 si); cbn; lia. }
  split; auto. split; auto.
  intros i Hi. rewrite (O1 i Hi). f_equal. symmetry. apply (mv_pend c); auto.
Qed.

(** What the virtual search proves. *)
Lemma vtime_bound b U vs qs i y Y pt :
  skipn (b i) (F i) = nth i vs [] ++ nth i qs [] ++ U i -> (i < N)%nat ->
  nth i vs [] ++ nth i qs [] <> [] ->
  selects y Y -> (b i + length (nth i vs []) <= y i)%nat -> pt <= finish Y ->
  vtime stamp c pt i (nth i vs []) (nth i qs []) <= finish Y.
Proof.
  intros HP Hi Hne HY Hy Hpt. destruct (selects_at _ _ i HY Hi) as (e & E1 & _ & E3).
  pose proof (finish_ge stamp Y e E3) as Hf.
  unfold vtime. destruct (nth i qs []) as [|x q].
  - destruct (rev (nth i vs [])) as [|l rv] eqn:Er.
    + exfalso. apply Hne. apply (f_equal (@rev E)) in Er. rewrite rev_involutive in Er.
      rewrite Er. reflexivity.
    + apply (f_equal (@rev E)) in Er. rewrite rev_involutive in Er. cbn in Er.
      rewrite Er in *. rewrite app_length, rev_length in Hy. cbn in Hy.
      assert (nth_error (F i) (b i + length rv) = Some l) as El.
      { rewrite <- nth_error_skipn, HP, <- app_assoc, nth_error_app2 by (rewrite rev_length; lia).
        now rewrite rev_length, Nat.sub_diag. }
      pose proof (spaced_lt i (b i + length rv) (y i) l e Hi ltac:(lia) El E1). lia.
  - assert (nth_error (F i) (b i + length (nth i vs [])) = Some x) as El.
    { rewrite <- nth_error_skipn, HP, nth_error_app2, Nat.sub_diag by lia. reflexivity. }
    pose proof (mono i _ (y i) x e Hi Hy El E1). lia.
Qed.

Lemma vproof_optimal (R : list E -> Prop) b a U cs ce pt vs qs cand :
  (forall Y d, start Y - cs <= scale c d -> d <= finish Y - ce -> 0 <= finish Y - ce -> R Y) ->
  vproof stamp c cs ce pt vs qs ->
  length vs = N -> length qs = N ->
  selects b cand -> finish cand = ce -> cs <= pt ->
  (forall i, (i < N)%nat -> skipn (b i) (F i) = nth i vs [] ++ nth i qs [] ++ U i) ->
  (forall i, (i < N)%nat -> nth i vs [] ++ nth i qs [] <> []) ->
  (forall y Y, selects y Y -> from a y ->
     ~ from (fun i => (b i + length (nth i vs []))%nat) y -> pt <= finish Y -> R Y) ->
  forall y Y, selects y Y -> from a y -> start Y <= pt <= finish Y -> R Y.
Proof.
  intros HR HV.
  induction HV as [vs qs ei Hei Hle|vs qs ei si x q' Hei Hsi Hq Hle HV IH];
    intros Lv Lq HSc Hfc Hcs HP Hne HA y Y HY Hay Hpt.
  - destruct (from_dec (fun i => (b i + length (nth i vs []))%nat) y) as [Hf|Hf]; [|apply (HA y Y); auto; lia].
    assert (finish cand <= finish Y) as Hce.
    { apply (selects_mono b cand y Y); auto. intros i Hi. specialize (Hf i Hi). cbn in Hf. lia. }
    assert (vtime stamp c pt ei (nth ei vs []) (nth ei qs []) <= finish Y) as Hvt
      by (apply (vtime_bound b U vs qs ei y Y pt); auto; lia).
    eapply HR; [|apply Z.sub_le_mono_r; exact Hvt|]; lia.
  - apply IH with (y := y); auto; try (rewrite upd_length; auto).
    + intros i Hi. rewrite HP by auto. destruct (Nat.eq_dec si i) as [<-|Hn'].
      * rewrite !nth_upd_eq by lia. rewrite Hq, <- app_assoc. reflexivity.
      * rewrite !nth_upd_neq by congruence. reflexivity.
    + intros i Hi. destruct (Nat.eq_dec si i) as [<-|Hn'].
      * rewrite !nth_upd_eq by lia. intros H. apply app_eq_nil in H as (H & _).
        apply app_eq_nil in H as (_ & H). discriminate.
      * rewrite !nth_upd_neq by congruence. auto.
    + clear y Y HY Hay Hpt. intros y Y HY Hay Hny Hpf.
      destruct (from_dec (fun i => (b i + length (nth i vs []))%nat) y) as [Hf|Hf]; [|apply (HA y Y); auto].
      destruct (Nat.eq_dec (y si) (b si + length (nth si vs []))%nat) as [Eq|Hn'].
      * assert (nth_error (F si) (y si) = Some x) as Ex.
        { rewrite Eq, <- nth_error_skipn, HP, nth_error_app2, Nat.sub_diag by (auto; lia).
          rewrite Hq. reflexivity. }
        destruct (selects_at _ _ si HY Hsi) as (e & E1 & _ & E3).
        assert (e = x) as -> by congruence.
        pose proof (start_le stamp Y x E3) as Hsx.
        assert (finish cand <= finish Y) as Hce.
        { apply (selects_mono b cand y Y); auto. intros i Hi. specialize (Hf i Hi). cbn in Hf. lia. }
        assert (vtime stamp c pt ei (nth ei vs []) (nth ei qs []) <= finish Y) as Hvt
          by (apply (vtime_bound b U vs qs ei y Y pt); auto; lia).
        eapply HR; [|apply Z.sub_le_mono_r; exact Hvt|]; lia.
      * exfalso. apply Hny. intros i Hi. cbn. specialize (Hf i Hi). cbn in Hf.
        destruct (Nat.eq_dec si i) as [<-|Hn2].
        -- rewrite nth_upd_eq by lia. rewrite app_length. cbn. lia.
        -- rewrite nth_upd_neq by congruence. auto.
Qed.

(** A justified publication beats every straddling set. *)
Lemma publish_optimal U base b a p hs ei et si st s1 :
  WF c s1 -> PInv stamp c s1 -> SInv s1 -> pivot s1 = Some p ->
  OInv U base b a p s1 -> selects (cur b s1) hs -> extremes stamp hs ei et si st ->
  heads c s1 hs -> Loses (cstart s1) (cend s1) hs -> cend s1 <= et ->
  justified stamp c si et p (mv si s1) ->
  forall y Y, selects y Y -> from a y -> start Y <= ptime s1 <= finish Y ->
    AsGood (cstart s1) (cend s1) Y.
Proof.
  intros HW HP HS Ep HO HSel HX HH HLo Hce HJ.
  destruct (extremes_start_finish stamp hs ei et si st HX) as (Est & Eet & Hle).
  assert (AsGood (cstart s1) (cend s1) hs) as HAG by (apply Loses_AsGood; auto; lia).
  pose proof (sc_den _ _ _ _ SC) as Hden. pose proof (sc_num _ _ _ _ SC) as Hnum.
  destruct (mv_O U base b a p hs ei et si st s1 HW HO HSel HX HAG) as (HO2 & HA2).
  unfold PInv in HP. rewrite Ep in HP. destruct HP as (Hp & HC & Hpp & x & Hx & Hpt).
  unfold SInv in HS. rewrite Ep in HS. destruct HS as ((cand & S1 & S2 & S3) & S4 & _).
  assert (si < N)%nat as Hsi by (destruct HX, HSel; lia).
  destruct HJ as [->|[HJ|HJ]]; intros y Y HY Hay Hst.
  - destruct (from_dec (cur b s1) y) as [Hf|Hf]; [|eapply (oi_kept _ _ _ _ _ _ HO); eauto].
    destruct (selects_mono _ _ _ _ HSel HY Hf) as (M1 & M2).
    destruct (ex_st _ _ _ _ _ _ HX) as (m & Em & Hm).
    destruct HH as (_ & HH). rewrite HH in Em by auto. assert (m = x) as -> by congruence.
    unfold AsGood in *. rewrite Est, Eet in *. nia.
  - destruct (from_dec (cur b s1) y) as [Hf|Hf]; [|eapply (oi_kept _ _ _ _ _ _ HO); eauto].
    destruct (selects_mono _ _ _ _ HSel HY Hf) as (M1 & M2). rewrite Est, Eet in *.
    cbn [mv set_queues ptime cstart cend] in HJ.
    pose proof (scale_bound _ _ (finish Y - cend s1) HJ ltac:(lia) ltac:(lia)) as Hb.
    unfold AsGood. nia.
  - pose proof (mv_WF c si s1 HW) as HW2.
    refine (vproof_optimal _ b a U _ _ _ _ _ cand _ HJ _ _ _ _ _ _ _ _ y Y HY Hay Hst).
    + intros Z0 d Z1 Z2 Z3. unfold AsGood. apply (scale_bound _ d); auto.
    + destruct HW2; auto.
    + destruct HW2; auto.
    + eapply candidate_selects; eauto. apply (oi_pos _ _ _ _ _ _ HO).
    + exact S3.
    + cbn. lia.
    + intros i Hi. rewrite (oi_pos _ _ _ _ _ _ HO2 i Hi). unfold pend. now rewrite <- app_assoc.
    + intros i Hi HE. change (pend (mv si s1) i = []) in HE. unfold pend in HE.
      rewrite (mv_pend c) in HE by auto. destruct HC as (cand' & C1 & C2 & C3).
      specialize (C3 i Hi). rewrite HE in C3. cbn in C3. apply nth_error_None in C3. lia.
    + intros y' Y' HY' Hay' Hny' _. eapply HA2; eauto.
Qed.

(** After a justified publication the search of [found_set] keeps its favourite. *)
Lemma publish_loses U base b a p hs ei et si st s1 :
  WF c s1 -> PInv stamp c s1 -> SInv s1 -> pivot s1 = Some p ->
  OInv U base b a p s1 -> selects (cur b s1) hs -> extremes stamp hs ei et si st ->
  cend s1 <= et -> si <> p -> justified stamp c si et p (mv si s1) ->
  forall y Y, selects y Y -> from (cur b (mv si s1)) y -> start Y <= ptime s1 <= finish Y ->
    Loses (cstart s1) (cend s1) Y.
Proof.
  intros HW HP HS Ep HO HSel HX Hce Hne HJ.
  destruct (extremes_start_finish stamp hs ei et si st HX) as (Est & Eet & Hle).
  unfold PInv in HP. rewrite Ep in HP. destruct HP as (Hp & HC & Hpp & x & Hx & Hpt).
  unfold SInv in HS. rewrite Ep in HS. destruct HS as ((cand & S1 & S2 & S3) & S4 & _).
  assert (si < N)%nat as Hsi by (destruct HX, HSel; lia).
  assert (forall Y d, start Y - cstart s1 <= scale c d -> d <= finish Y - cend s1 -> 0 <= finish Y - cend s1 ->
            Loses (cstart s1) (cend s1) Y) as HR.
  { intros Y d H1 H2 H3. unfold Loses. pose proof (scale_le d _ H2 H3). lia. }
  assert (from (cur b s1) (cur b (mv si s1))) as Hmv.
  { intros i Hi. unfold cur. destruct HW as [W1 W2 _ _]. rewrite (mv_pa c) by auto.
    destruct (Nat.eq_dec si i) as [<-|]; [|lia]. rewrite app_length. lia. }
  destruct HJ as [->|[HJ|HJ]]; intros y Y HY Hay Hst.
  - congruence.
  - destruct (selects_mono _ _ _ _ HSel HY (from_trans _ _ _ Hmv Hay)) as (M1 & M2).
    rewrite Est, Eet in *. cbn [mv set_queues ptime cstart cend] in HJ.
    apply (HR Y (et - cend s1)); lia.
  - pose proof (mv_WF c si s1 HW) as HW2.
    refine (vproof_optimal _ b (cur b (mv si s1)) U _ _ _ _ _ cand HR HJ _ _ _ _ _ _ _ _ y Y HY Hay Hst).
    + destruct HW2; auto.
    + destruct HW2; auto.
    + eapply candidate_selects; eauto. apply (oi_pos _ _ _ _ _ _ HO).
    + exact S3.
    + cbn. lia.
    + intros i Hi. rewrite (oi_pos _ _ _ _ _ _ HO i Hi).
      unfold pend. rewrite <- (mv_pend c si i s1) by auto. now rewrite <- app_assoc.
    + intros i Hi HE. change (pend (mv si s1) i = []) in HE. unfold pend in HE.
      rewrite (mv_pend c) in HE by auto. destruct HC as (cand' & C1 & C2 & C3).
      specialize (C3 i Hi). rewrite HE in C3. cbn in C3. apply nth_error_None in C3. lia.
    + intros y' Y' HY' Hay' Hny' _. contradiction.
Qed.

Notation opt base x X := (optimal_set stamp N F num den tol base x X).
Notation nxt base x X := (next_set stamp N F num den (max_interval c) tol base x X).
Notation fnd base x X := (found_set stamp N F (max_interval c) (scale c) base x X).
Definition PSet base x X : Prop := opt base x X /\ (strict -> nxt base x X /\ fnd base x X).

Lemma not_better_iff cand Y :
  ~ better_by stamp num den tol Y cand <-> AsGood (start cand) (finish cand) Y.
Proof. unfold better_by, AsGood. lia. Qed.

Lemma keep_only_false k l : (forall i, nth i l false = false) ->
  forall i, nth i (keep_only_from 0 k l) false = false.
Proof. intros H i. rewrite keep_only_nth. rewrite H. now destruct (Nat.eqb _ _). Qed.

Lemma skipn_S_tl {A} (l : list A) k : skipn (S k) l = tl (skipn k l).
Proof. revert l; induction k; intros [|x l]; cbn; auto. apply IHk. Qed.

Lemma step_G U base s hs ei et si st s' o :
  WF c s -> PInv stamp c s -> SInv s -> GInv U base s ->
  heads c s hs -> extremes stamp hs ei et si st ->
  step_kind stamp c s hs ei et si st s' o ->
  (o = [] /\ GInv U base s') \/
  (exists x X, o = [X] /\ PSet base x X /\ GInv U (fun i => S (x i)) s' /\
     pivot s' = None /\ pos (fun i => S (x i)) U s').
Proof.
  intros HW HP HS HG HH HX HK.
  set (s0 := clear_dropped ei s) in *.
  assert (WF c s0) as HW0 by (now apply clear_WF).
  assert (PInv stamp c s0) as HP0 by (now apply clear_PInv).
  assert (SInv s0) as HS0 by exact HS.
  assert (heads c s0 hs) as HH0 by exact HH.
  assert (GInv U base s0) as HG0.
  { destruct HG as (HD & HG). split.
    - intros Hst. cbn. apply keep_only_false. auto.
    - cbn. destruct (pivot s).
      + destruct HG as (Hlt & b & a & [O1 O2 O3 O4 O5 O6 O7 O8] & HPe). split; [exact Hlt|].
        exists b, a. split; [split; auto|exact HPe].
      + destruct HG as (b & [O1 O2 O3]). exists b. split; auto. }
  destruct (extremes_start_finish stamp hs ei et si st HX) as (Est & Eet & Hle).
  set (s1 := choose c hs st et ei s0) in *.
  assert (WF c s1) as HW1 by (now apply choose_WF).
  assert (si < N)%nat as Hsi by (destruct HX, HH; lia).
  assert (dropped s1 = dropped s0) as Ed1.
  { unfold s1, choose. destruct (pivot s0); [destruct (better_heads _ _ _ _)|]; reflexivity. }
  destruct HK as [Hpv Hc | p cand Hc s2 Hp2 Hc2 HJ | p Hc s2 Hp2 Hne Hag].
  - (* delete *)
    left. split; auto. destruct HG as (HD & HG). split; [exact (proj1 HG0)|].
    cbn [del set_queues pivot clear_dropped]. rewrite Hpv in *.
    destruct HG as (b & [O1 O2 O3]). unfold PInv in HP. rewrite Hpv in HP.
    pose proof (heads_selects b U s hs O1 HH) as HSel.
    assert (forall i, cur b s i = b i) as Hcur
      by (intros i; unfold cur; rewrite HP; cbn [length]; lia).
    destruct (ex_st _ _ _ _ _ _ HX) as (m & Em & Hm).
    exists (fun i => if Nat.eq_dec si i then S (b i) else b i). split.
    + intros i Hi. unfold pend. change (pa (del si (clear_dropped ei s)) i) with (pa s i).
      destruct HW0 as [W1 W2 _ _].
      rewrite (del_dq c) by (solve [auto | exact W1]). rewrite HP. cbn [app].
      change (dq (clear_dropped ei s) i) with (dq s i). specialize (O1 i Hi). unfold pend in O1.
      rewrite HP in O1. cbn [app] in O1.
      destruct (Nat.eq_dec si i) as [<-|]; auto.
      rewrite skipn_S_tl, O1. destruct HH as (_ & HH). rewrite HH in Em by auto.
      destruct (dq s si); [discriminate|reflexivity].
    + intros i Hi. specialize (O2 i Hi). destruct (Nat.eq_dec si i); lia.
    + intros Hst y Y HY Hby Hsp i Hi.
      pose proof (O3 Hst y Y HY Hby Hsp) as Hf. pose proof (Hf i Hi) as Hfi.
      destruct (Nat.eq_dec si i) as [<-|]; auto.
      destruct (Nat.eq_dec (y si) (b si)) as [Eq|]; [|lia].
      exfalso. assert (from (cur b s) y) as Hfc by (intros j Hj; rewrite Hcur; auto).
      destruct (leave _ _ y Y si m HSel HY Hfc Hsi ltac:(rewrite Hcur; auto) Em) as (L1 & L2).
      destruct Hc as [Hc|Hc]; [|rewrite HD in Hc by auto; discriminate].
      unfold span in Hsp. lia.
  - (* publish *)
    right. fold s0 s1 in s2.
    assert (pivot s0 = None -> et - st <= max_interval c) as HM by (intros Hx; now apply Hc).
    destruct (choose_SInv hs ei et si st s0 HW0 HP0 HS0 HH0 HX HM) as (HS1 & HT1). fold s1 in HS1, HT1.
    destruct (choose_PInv stamp c hs ei et si st s0 HW0 HP0 HH0 HX) as (p' & Ep1 & HP1). fold s1 in Ep1, HP1.
    destruct (choose_O U base hs ei et si st s0 HW0 HP0 HS0 HG0 HH0 HX HM)
      as (b & a & p'' & Ep2 & HO & HSel & HLo & Hce & k & HScan). fold s1 in Ep2, HO, HSel, HLo, Hce, HScan.
    assert (AsGood (cstart s1) (cend s1) hs) as HAG by (apply Loses_AsGood; auto; lia).
    assert (p' = p) as -> by (cbn in Hp2; congruence).
    assert (p'' = p) as -> by congruence.
    assert (heads c s1 hs) as HH1.
    { destruct HH0 as (L1 & L2). split; auto. intros i Hi. rewrite L2 by auto.
      unfold s1, dq. now rewrite choose_dq. }
    pose proof (publish_optimal U base b a p hs ei et si st s1 HW1 HP1 HS1 Ep1 HO HSel HX HH1 HLo Hce HJ) as HOpt.
    destruct (mv_O U base b a p hs ei et si st s1 HW1 HO HSel HX HAG) as (HO2 & _).
    pose proof HP1 as HP1'. pose proof HS1 as HS1'.
    unfold PInv in HP1. rewrite Ep1 in HP1. destruct HP1 as (Hp & HC & Hpp & x & Hx & Hpt).
    unfold SInv in HS1. rewrite Ep1 in HS1. destruct HS1 as ((cand' & S1 & S2 & S3) & S4 & _).
    assert (cand' = cand) as -> by (cbn in Hc2; congruence).
    pose proof (candidate_selects b U s1 cand (oi_pos _ _ _ _ _ _ HO) HC S1) as HSc.
    destruct (oi_A _ _ _ _ _ _ HO) as (A & HA1 & HA2 & HA3 & _).
    assert (nth_error cand p = Some x) as Hxp.
    { destruct HC as (cand' & C1 & C2 & C3). assert (cand' = cand) as -> by congruence.
      rewrite C3 by auto. rewrite Hpp. exact Hx. }
    assert (forall y Y, selects y Y -> from base y -> start Y <= ptime s1 <= finish Y ->
              ~ better_by stamp num den tol Y cand) as HB.
    { intros y Y HY Hby Hst'. apply not_better_iff. rewrite S2, S3.
      destruct (selects_join a A y Y HA1 HY) as (Z0 & HZ & J1 & J2 & J3 & J4).
      assert (AsGood (cstart s1) (cend s1) Z0) as HAZ.
      { eapply HOpt; eauto; [intros i Hi; cbn; lia|]. lia. }
      pose proof (sc_den _ _ _ _ SC) as Hden. unfold AsGood in *.
      replace (finish Z0) with (finish Y) in HAZ by lia. nia. }
    assert (pos (fun i => S (b i)) U (pub s2)) as Hpos.
    { intros i Hi. unfold pend. rewrite pub_pa, (pub_dq c) by (apply mv_WF; auto).
      cbn [app]. rewrite skipn_S_tl, (oi_pos _ _ _ _ _ _ HO2 i Hi). fold s2. unfold pend.
      assert (pa s2 i ++ dq s2 i <> []) as Hne.
      { intros HE. unfold s2 in HE. rewrite (mv_pend c) in HE by auto.
        destruct HC as (cand' & C1 & C2 & C3).
        specialize (C3 i Hi). rewrite HE in C3. cbn in C3. apply nth_error_None in C3. lia. }
      destruct (pa s2 i ++ dq s2 i); [congruence|reflexivity]. }
    exists b, cand. split; auto. split; [split|split; [|split; [reflexivity|exact Hpos]]].
    + split; auto.
      * eapply from_trans; [apply (oi_base _ _ _ _ _ _ HO)|apply (oi_ab _ _ _ _ _ _ HO)].
      * exists a, A, p, x. split; [exact HA1|]. split; [apply (oi_base _ _ _ _ _ _ HO)|].
        split; [apply (oi_ab _ _ _ _ _ _ HO)|]. split; [exact Hp|].
        split; [symmetry; apply (oi_p _ _ _ _ _ _ HO)|]. split; [exact Hxp|].
        split; [congruence|]. rewrite Hpt. exact HB.
    + intros Hst. split.
      2: { split; [exact HSc|]. split.
           { eapply from_trans; [apply (oi_base _ _ _ _ _ _ HO)|apply (oi_ab _ _ _ _ _ _ HO)]. }
           exists a, A, k, (cur b s1). rewrite HA2. split; [split; auto|].
           { apply (oi_base _ _ _ _ _ _ HO). }
           { apply (oi_adm _ _ _ _ _ _ HO Hst). }
           split; [exact HScan|]. intros k' h' x' Hk Hs'.
           replace k' with (k + (k' - k))%nat in Hs' by lia.
           destruct (first_earliest_extremes stamp hs ei et si st HX) as (e0 & He0).
           eapply (scan_stays stamp N F (scale c) a (ptime s1) k (cur b s1) b cand hs p x si e0);
             [exact HScan|exact HSel|exact He0|exact HSc|exact Hp| |exact Hpt| |exact Hs'].
           - apply (pos_head b U s1 p x (oi_pos _ _ _ _ _ _ HO) Hp Hx).
           - intros y Y Hsp HY Hf Hst'. rewrite S2, S3.
             apply (publish_loses U base b a p hs ei et si st s1 HW1 HP1' HS1' Ep1 HO HSel HX Hce Hsp HJ y Y HY);
               [|exact Hst'].
             intros i Hi. specialize (Hf i Hi). cbn in Hf. unfold cur in *. destruct HW1 as [W1 W2 _ _].
             rewrite (mv_pa c) by auto. destruct (Nat.eq_dec si i) as [<-|]; auto.
             rewrite app_length. destruct (dq s1 si); cbn; lia. }
      split; auto. split.
      { eapply from_trans; [apply (oi_base _ _ _ _ _ _ HO)|apply (oi_ab _ _ _ _ _ _ HO)]. }
      exists a, A. split; [split; auto|].
      { apply (oi_base _ _ _ _ _ _ HO). }
      { apply (oi_adm _ _ _ _ _ _ HO Hst). }
      split; [apply (oi_ab _ _ _ _ _ _ HO)|]. rewrite S2, S3, HA2.
      split; auto. split.
      { exists p, x. split; auto. split; [symmetry; apply (oi_p _ _ _ _ _ _ HO)|]. auto. }
      intros y Y HY Hby Hsy. split; [eauto|]. intros Hay Hnb.
      destruct (from_dec b y) as [|Hny]; auto. exfalso.
      pose proof (oi_least _ _ _ _ _ _ HO y Y HY Hay Hny) as HL.
      unfold StrictlyBetter in HL. unfold better_by in Hnb. rewrite S2, S3 in Hnb. lia.
    + split; [intros Hst; cbn; rewrite Ed1; apply (proj1 HG0); auto|].
      cbn [pub pivot]. exists (fun i => S (b i)). split.
      * exact Hpos.
      * apply from_refl.
      * intros _ y Y _ Hby _. exact Hby.
  - (* keep searching *)
    left. split; auto. fold s0 s1 in s2.
    assert (pivot s0 = None -> et - st <= max_interval c) as HM by (intros Hx; now apply Hc).
    destruct (choose_O U base hs ei et si st s0 HW0 HP0 HS0 HG0 HH0 HX HM)
      as (b & a & p'' & Ep2 & HO & HSel & HLo & Hce & k & HScan). fold s1 in Ep2, HO, HSel, HLo, Hce, HScan.
    assert (AsGood (cstart s1) (cend s1) hs) as HAG by (apply Loses_AsGood; auto; lia).
    destruct (mv_O U base b a p'' hs ei et si st s1 HW1 HO HSel HX HAG) as (HO2 & _).
    split; [intros Hst; cbn; rewrite Ed1; apply (proj1 HG0); auto|].
    fold s2 in HO2. rewrite Hp2. assert (p'' = p) as -> by (cbn in Hp2; congruence).
    assert (ptime s2 = ptime s1 /\ cstart s2 = cstart s1 /\ cend s2 = cend s1) as (Et2 & Ecs & Ece)
      by (split; [|split]; reflexivity).
    assert (0 <= et - cend s1) as Hnn by lia. pose proof (scale_nonneg _ Hnn) as Hsn.
    split.
    2: { exists b, a. split; [exact HO2|].
         destruct (first_earliest_extremes stamp hs ei et si st HX) as (e0 & He0).
         exists k, (cur b s1), hs, si, e0. rewrite Et2. split; [exact HScan|]. split; [exact HSel|].
         split; [exact He0|]. split; [exact Hsi|]. split.
         - destruct He0 as (He0 & _). destruct (ex_st _ _ _ _ _ _ HX) as (e1 & He1 & <-).
           assert (e0 = e1) as -> by congruence.
           unfold Loses in HLo. rewrite Est, Eet in HLo. rewrite Et2, Ecs, Ece in Hag. lia.
         - intros i Hi. change s2 with (mv si s1). unfold cur. destruct HW1 as [W1 W2 _ _]. rewrite (mv_pa c) by auto.
           destruct (Nat.eq_dec si i) as [<-|]; auto. rewrite app_length.
           destruct HH0 as (HL0 & HH0). destruct (ex_st _ _ _ _ _ _ HX) as (e1 & He1 & _).
           rewrite HH0 in He1 by auto.
           assert (dq s1 si = dq s0 si) as -> by (unfold s1, dq; now rewrite choose_dq).
           destruct (dq s0 si); [discriminate He1|]. cbn. lia. }
    cbn [s2 mv set_queues cstart ptime cend] in Hag |- *. fold s0 s1 in Hag |- *.
    lia.
Qed.

Notation chain := (sets_from N).

Lemma chain_app (P : (nat -> nat) -> (nat -> nat) -> list E -> Prop) base o1 b1 o2 b2 :
  (forall base1 base2 x X, (forall i, (i < N)%nat -> base1 i = base2 i) -> P base1 x X -> P base2 x X) ->
  chain P base o1 b1 -> chain P b1 o2 b2 -> chain P base (o1 ++ o2) b2.
Proof.
  intros HP H1; revert o2 b2.
  induction H1 as [base base' Heq|base x X outs base' HX H1 IH]; intros o2 b2 H2; cbn [app].
  - inversion H2 as [? ? Heq'|? x X outs ? HX H3]; subst.
    + constructor. intros i Hi. rewrite Heq, Heq'; auto.
    + econstructor; [|exact H3]. eapply HP; [|exact HX]. intros; symmetry; auto.
  - econstructor; eauto.
Qed.

Lemma from_ext_l x x' y : (forall i, (i < N)%nat -> x i = x' i) -> from x y -> from x' y.
Proof. intros H H1 i Hi. rewrite <- H; auto. Qed.

Lemma PSet_ext base1 base2 x X :
  (forall i, (i < N)%nat -> base1 i = base2 i) -> PSet base1 x X -> PSet base2 x X.
Proof.
  intros Heq ([A1 A2 (f0 & F0 & p0 & m & H1 & H2 & H3 & H4 & H5 & H6 & H7 & A3)] & B).
  assert (forall i, (i < N)%nat -> base2 i = base1 i) as Heq' by (intros; symmetry; auto).
  split.
  - split; auto; [eapply from_ext_l; eauto|]. exists f0, F0, p0, m. split; auto.
    split; [eapply from_ext_l; eauto|]. repeat (split; [assumption|]).
    intros y Y HY Hf. apply (A3 y Y); auto. eapply from_ext_l; eauto.
  - intros Hst. destruct (B Hst) as (B1 & B2). split.
    2: { destruct B2 as (C1 & C2 & f & Fst & k & h & [D1 D2 D3 D4] & C3 & C4).
         split; auto. split; [eapply from_ext_l; eauto|]. exists f, Fst, k, h.
         split; [split; auto; [eapply from_ext_l; eauto|]|].
         { intros y Y HY Hf. apply (D4 y Y); auto. eapply from_ext_l; eauto. }
         split; auto. }
    destruct B1 as (C1 & C2 & f & Fst & [D1 D2 D3 D4] & C3 & C4 & C5 & C6).
    split; auto. split; [eapply from_ext_l; eauto|]. exists f, Fst.
    split; [split; auto; [eapply from_ext_l; eauto|]|].
    { intros y Y HY Hf. apply (D4 y Y); auto. eapply from_ext_l; eauto. }
    split; auto. split; auto. split; auto.
    intros y Y HY Hf. apply (C6 y Y); auto. eapply from_ext_l; eauto.
Qed.

Lemma steps_G U s o s' : steps stamp c s o s' ->
  forall base, SInv s -> GInv U base s ->
  exists base', chain PSet base o base' /\ GInv U base' s'.
Proof.
  induction 1 as [s|s hs ei et si st s1 o1 s2 o2 HW HP Hnm HH HX HK HSt IH]; intros base HS HG.
  - exists base. split; auto. constructor; auto.
  - destruct (step_SInv _ _ _ _ _ _ _ _ HW HP HS HH HX HK) as (HS1 & _).
    destruct (step_G U base s hs ei et si st s1 o1 HW HP HS HG HH HX HK)
      as [(-> & HG1)|(x & X & -> & HPS & HG1 & _)].
    + cbn [app]. eauto.
    + destruct (IH _ HS1 HG1) as (base' & HC & HG2). exists base'. split; auto.
      cbn [app]. econstructor; eauto.
Qed.

(* ------------------------------------------------------------------ *)
(** Whole runs *)
Definition covers (h : list (nat * E)) : Prop :=
  forall i, (i < N)%nat -> prefix (stream i h) (F i).
Definition unread (h : list (nat * E)) (i : nat) : list E := skipn (length (stream i h)) (F i).

Lemma GInv_warned U base w s : GInv U base s -> GInv U base (set_warned w s).
Proof.
  intros (HD & HG). split; [exact HD|]. cbn. destruct (pivot s).
  - destruct HG as (Hlt & b & a & [O1 O2 O3 O4 O5 O6 O7 O8] & HPe). split; [exact Hlt|].
    exists b, a. split; [split; auto|exact HPe].
  - destruct HG as (b & [O1 O2 O3]). exists b. split; auto.
Qed.

Lemma unread_snoc h i e : covers (h ++ [(i, e)]) -> (i < N)%nat ->
  unread h i = e :: unread (h ++ [(i, e)]) i /\
  forall j, j <> i -> unread (h ++ [(i, e)]) j = unread h j.
Proof.
  intros HC Hi. split.
  - destruct (HC i Hi) as (r & Hr). unfold unread. rewrite Hr, stream_app.
    assert (stream i [(i, e)] = [e]) as -> by (unfold stream; cbn; now rewrite Nat.eqb_refl).
    rewrite <- app_assoc, skipn_app, skipn_all, Nat.sub_diag. cbn [skipn app].
    f_equal. rewrite app_length. cbn [length].
    rewrite skipn_app. replace (length (stream i h) + 1 - length (stream i h))%nat with 1%nat by lia.
    rewrite skipn_all2 by lia. reflexivity.
  - intros j Hj. unfold unread. rewrite stream_app.
    assert (stream j [(i, e)] = []) as ->.
    { unfold stream; cbn. destruct (Nat.eqb_spec i j); [congruence|reflexivity]. }
    now rewrite app_nil_r.
Qed.

Lemma covers_snoc h x : covers (h ++ [x]) -> covers h.
Proof.
  intros HC i Hi. destruct (HC i Hi) as (r & Hr). rewrite stream_app, <- app_assoc in Hr.
  now exists (stream i [x] ++ r).
Qed.

Lemma GInv_push base h i e s : WF c s -> (i < N)%nat -> covers (h ++ [(i, e)]) ->
  GInv (unread h) base s -> GInv (unread (h ++ [(i, e)])) base (push i e s).
Proof.
  intros HW Hi HC (HD & HG). destruct (unread_snoc h i e HC Hi) as (U1 & U2).
  assert (forall b, pos b (unread h) s -> pos b (unread (h ++ [(i, e)])) (push i e s)) as Hpos.
  { intros b O1 j Hj. rewrite (O1 j Hj). rewrite (push_pend c) by auto.
    destruct (Nat.eq_dec i j) as [->|Hne].
    - rewrite U1, <- app_assoc. reflexivity.
    - rewrite U2 by congruence. reflexivity. }
  split; [exact HD|]. cbn [push set_queues pivot].
  destruct (pivot s).
  - destruct HG as (Hlt & b & a & [O1 O2 O3 O4 O5 O6 O7 O8] & HPe). split; [exact Hlt|].
    exists b, a. split; [split; auto|exact HPe].
  - destruct HG as (b & [O1 O2 O3]). exists b. split; auto.
Qed.

Lemma GInv_drop U base i s : WF c s -> (i < N)%nat -> ~ strict -> pend s i <> [] ->
  GInv U base s -> GInv U base (drop i s).
Proof.
  intros HW Hi Hns Hne (HD & HG). split; [tauto|]. cbn [drop pivot].
  assert (exists b, pos b U s /\ from base b) as (b & HP & HB).
  { destruct (pivot s).
    - destruct HG as (_ & b & a & HO & _). exists b. split; [apply (oi_pos _ _ _ _ _ _ HO)|].
      eapply from_trans; [apply (oi_base _ _ _ _ _ _ HO)|apply (oi_ab _ _ _ _ _ _ HO)].
    - destruct HG as (b & HO). exists b. split; [apply (ni_pos _ _ _ _ HO)|apply (ni_base _ _ _ _ HO)]. }
  exists (fun j => if Nat.eq_dec i j then S (b j) else b j). split.
  - intros j Hj. destruct (drop_pend c i s j HW Hi) as (D1 & D2).
    unfold pend. rewrite D1, D2. cbn [app]. fold (pend s j).
    destruct (Nat.eq_dec i j) as [<-|]; [|apply HP; auto].
    rewrite skipn_S_tl, (HP i Hi). destruct (pend s i); [congruence|reflexivity].
  - intros j Hj. specialize (HB j Hj). destruct (Nat.eq_dec i j); lia.
  - tauto.
Qed.

Lemma run_G : (0 < queue_size c)%nat ->
  forall h, (forall i e, In (i, e) h -> (i < N)%nat) ->
  forall s outs, run stamp c (init c) h = Ok (s, outs) ->
  SInv s /\ (covers h -> (strict -> no_overflow stamp c h) ->
    exists base', chain PSet (fun _ => 0%nat) outs base' /\ GInv (unread h) base' s).
Proof.
  intros Hq. apply run_invariant; auto.
  - split; [exact I|]. intros HC _. exists (fun _ => 0%nat). split; [constructor; auto|].
    split.
    + intros _ i. cbn. generalize N. intros k; revert i; induction k; destruct i; cbn; auto.
    + cbn. exists (fun _ => 0%nat). split.
      * intros i Hi. unfold pend, pa, dq. cbn. rewrite !nth_repeat_nil. reflexivity.
      * apply from_refl.
      * intros _ y Y _ Hy _. exact Hy.
  - intros h s outs i e s1 o1 s2 o2 Hr [HW HP Hnm] (HS & IH) Hi E1 E2 J1 J2 A B.
    assert (SInv (push i e s)) as HSp by exact HS.
    assert (SInv s1) as HS1.
    { destruct A as [(w & -> & ->)|A]; [exact HSp|]. eapply steps_SInv; eauto. }
    split.
    { destruct B as [(_ & -> & ->)|(_ & B)]; [exact HS1|]. eapply steps_SInv; eauto. exact I. }
    intros HC Hno.
    destruct IH as (base & Hch & HG).
    { eapply covers_snoc; eauto. }
    { intros Hst h1 j d h2 Eh. apply (Hno Hst h1 j d (h2 ++ [(i, e)])). rewrite Eh, <- app_assoc. reflexivity. }
    pose proof (GInv_push base h i e s HW Hi HC HG) as HGp.
    assert (exists b1, chain PSet base o1 b1 /\ GInv (unread (h ++ [(i, e)])) b1 s1) as (b1 & Hc1 & HG1).
    { destruct A as [(w & -> & ->)|A].
      - exists base. split; [constructor; auto|]. now apply GInv_warned.
      - eapply steps_G; eauto. }
    assert (exists b2, chain PSet b1 o2 b2 /\ GInv (unread (h ++ [(i, e)])) b2 s2) as (b2 & Hc2 & HG2).
    { destruct B as [(_ & -> & ->)|(Hov & B)].
      - exists b1. split; [constructor; auto|]. auto.
      - assert (~ strict) as Hns.
        { intros Hst. specialize (Hno Hst h i e [] eq_refl s outs s1 o1 Hr E1).
          rewrite (nth_pending c) in Hno by (destruct J1; auto). unfold pend in Hov. lia. }
        assert (GInv (unread (h ++ [(i, e)])) b1 (drop i s1)) as HGd.
        { apply GInv_drop; auto; [destruct J1; auto|]. intros HE. rewrite HE in Hov. cbn in Hov. lia. }
        eapply steps_G; eauto. exact I. }
    exists b2. split; auto.
    eapply chain_app; [apply PSet_ext|exact Hch|].
    eapply chain_app; [apply PSet_ext|exact Hc1|exact Hc2].
Qed.
End O.

(* ------------------------------------------------------------------ *)
(** The next set is determined by the streams *)
Section Det.
Context {E : Type} (stamp : E -> Z) (n : nat) (F : nat -> list E) (num den mx : Z) (sc : Z -> Z).
Hypothesis Hn : (0 < n)%nat.

Lemma first_admissible_det base f f' Fst Fst' :
  first_admissible stamp n F mx base f Fst -> first_admissible stamp n F mx base f' Fst' ->
  Fst = Fst' /\ forall i, (i < n)%nat -> f i = f' i.
Proof.
  intros [A1 A2 A3 A4] [B1 B2 B3 B4].
  assert (forall i, (i < n)%nat -> f i = f' i) as He.
  { apply from_antisym; eauto. }
  split; auto. eapply selects_det; eauto.
Qed.

Lemma next_set_det base x x' X X' :
  next_set stamp n F num den mx 0 base x X -> next_set stamp n F num den mx 0 base x' X' ->
  X = X' /\ forall i, (i < n)%nat -> x i = x' i.
Proof.
  intros (A1 & A2 & f & Fst & A3 & A4 & A5 & A6 & A7) (B1 & B2 & f' & Fst' & B3 & B4 & B5 & B6 & B7).
  destruct (first_admissible_det _ _ _ _ _ A3 B3) as (<- & Hff).
  assert (from n f x') as C1.
  { intros i Hi. rewrite Hff by auto. auto. }
  assert (from n f' x) as C2.
  { intros i Hi. rewrite <- Hff by auto. auto. }
  assert (forall i, (i < n)%nat -> x i = x' i) as He.
  { apply from_antisym.
    - apply (A7 x' X'); auto. apply (B7 x X); auto.
    - apply (B7 x X); auto. apply (A7 x' X'); auto. }
  split; auto. eapply selects_det; eauto.
Qed.

Lemma found_set_det base x x' X X' :
  found_set stamp n F mx sc base x X -> found_set stamp n F mx sc base x' X' ->
  X = X' /\ forall i, (i < n)%nat -> x i = x' i.
Proof.
  intros (A1 & A2 & f & Fst & k & h & A3 & A4 & A5) (B1 & B2 & f' & Fst' & k' & h' & B3 & B4 & B5).
  destruct (first_admissible_det _ _ _ _ _ A3 B3) as (<- & Hff).
  assert (forall k h x, scan stamp n F sc f (finish stamp Fst) k h x <->
            scan stamp n F sc f' (finish stamp Fst) k h x) as HE.
  { intros k0 h0 x0. split; apply scan_from; auto. intros i Hi. symmetry. auto. }
  assert (same n x x') as He.
  { destruct (Nat.le_ge_cases k k') as [Hk|Hk].
    - apply (A5 k' h' x' Hk). now apply HE.
    - apply same_sym. apply (B5 k h x Hk). now apply HE. }
  split; [eapply (selects_det n F x x'); eauto|auto].
Qed.

Lemma scan_scale sc2 f t k : (forall d, sc2 d = sc d) ->
  forall h x, scan stamp n F sc f t k h x <-> scan stamp n F sc2 f t k h x.
Proof.
  intros He. induction k as [|k IH]; intros h x.
  - split; intros H; inversion H; subst; now constructor.
  - split; intros H; inversion H as [|k0 h0 x0 i H0 e ? H0' ? X G1 G2 G3 G4 G5 G6 G7 G8 G9]; subst;
      apply IH in G1; eapply scan_move; eauto.
    + now rewrite He.
    + now rewrite <- He.
Qed.

Lemma found_set_scale sc2 base x X : (forall d, sc2 d = sc d) ->
  found_set stamp n F mx sc2 base x X -> found_set stamp n F mx sc base x X.
Proof.
  intros He (C1 & C2 & f & Fst & k & h & C3 & C4 & C5). split; auto. split; auto.
  exists f, Fst, k, h. split; auto. split; [now apply (scan_scale sc2)|].
  intros k' h' x' Hk Hs. apply (C5 k' h' x' Hk). now apply (scan_scale sc2).
Qed.

Lemma found_set_ext base1 base2 x X : (forall i, (i < n)%nat -> base1 i = base2 i) ->
  found_set stamp n F mx sc base1 x X -> found_set stamp n F mx sc base2 x X.
Proof.
  intros Heq (C1 & C2 & f & Fst & k & h & [D1 D2 D3 D4] & C3 & C4).
  assert (forall y, from n base1 y -> from n base2 y) as T1
    by (intros y Hy i Hi; rewrite <- Heq; auto).
  assert (forall y, from n base2 y -> from n base1 y) as T2
    by (intros y Hy i Hi; rewrite Heq; auto).
  split; auto. split; auto. exists f, Fst, k, h. split; [split; eauto|]. split; auto.
Qed.

Lemma sets_from_prefix o1 o2 : forall base base2 b1 b2,
  (forall i, (i < n)%nat -> base i = base2 i) ->
  sets_from n (found_set stamp n F mx sc) base o1 b1 ->
  sets_from n (found_set stamp n F mx sc) base2 o2 b2 ->
  prefix o1 o2 \/ prefix o2 o1.
Proof.
  revert o2. induction o1 as [|X o1 IH]; intros o2 base base2 b1 b2 Heq H1 H2.
  - left. exists o2. reflexivity.
  - destruct o2 as [|X2 o2]; [right; exists (X :: o1); reflexivity|].
    inversion H1 as [|? x ? ? ? HX H1']; subst. inversion H2 as [|? x2 ? ? ? HX2 H2']; subst.
    assert (found_set stamp n F mx sc base x2 X2) as HX2'.
    { eapply found_set_ext; [|exact HX2]. intros; symmetry; auto. }
    destruct (found_set_det _ _ _ _ _ HX HX2') as (-> & Hx).
    destruct (IH o2 (fun i => S (x i)) (fun i => S (x2 i)) b1 b2 ltac:(intros i Hi; cbn; rewrite (Hx i Hi); reflexivity) H1' H2') as [(r & ->)|(r & ->)].
    + left. exists r. reflexivity.
    + right. exists r. reflexivity.
Qed.
End Det.
