(** What each operation does to the wiring, and the invariant of chains. *)
From Coq Require Import List Arith Lia Bool.
From Verif Require Import Base Net_Model Net_Spec Net_Flow Net_Wiring.
Import ListNotations.

Section Proofs.
Context {S M U : Type}.
Notation target := (target U).
Notation node := (node S M U).
Notation state := (state S M U).
Notation obs := (obs M U).
Notation op := (op S M U).
Notation class := (class S M).

Lemma clsof_lt (s : state) n c : clsof s n = Some c -> n < length s.
Proof. unfold clsof. intros H. apply nth_error_Some. destruct (nth_error s n); discriminate. Qed.
Lemma aliveof_lt (s : state) n : aliveof s n = true -> n < length s.
Proof. unfold aliveof. intros H. apply nth_error_Some. destruct (nth_error s n); discriminate. Qed.
Lemma user_view (s : state) n x : user s n = Ok x -> live s n = Ok x /\ nth_error s n = Some x /\ clsof s n = Some (cls x) /\
  aliveof s n = true /\ internalof s n = false /\ n < length s.
Proof.
  unfold user. destruct (live s n) as [y|] eqn:Hl; [|discriminate]. cbn. destruct (internal y) eqn:Hi; [discriminate|].
  intros H. injection H as <-. destruct (live_view _ _ _ Hl) as (V0 & V1 & V2 & V3 & _). rewrite <- V3 in Hi.
  repeat split; auto. eapply clsof_lt; eauto.
Qed.

(** ** a new filter *)
Record grown (s s' : state) (c : class) (int : bool) : Prop := mkGrown {
  gr_len : length s' = Datatypes.S (length s);
  gr_cbs : forall g, cbsof s' g = cbsof s g;
  gr_next : forall g, nextof s' g = nextof s g;
  gr_ins : forall n i, insof s' n i = insof s n i;
  gr_last : forall n, lastof s' n = lastof s n;
  gr_filters : forall n, filtersof s' n = filtersof s n;
  gr_cls : forall n, clsof s' n = if Nat.eqb n (length s) then Some c else clsof s n;
  gr_alive : forall n, aliveof s' n = if Nat.eqb n (length s) then true else aliveof s n;
  gr_int : forall n, internalof s' n = if Nat.eqb n (length s) then int else internalof s n;
  gr_insl : forall n x', nth_error s' n = Some x' -> nth_error s n = Some x' \/ length (ins x') = arity (cls x')
}.
Lemma nth_error_grow {A} (s : list A) x n : nth_error (s ++ [x]) n = if Nat.eqb n (length s) then Some x else nth_error s n.
Proof.
  destruct (Nat.eqb_spec n (length s)) as [->|Hne].
  - rewrite nth_error_app2, Nat.sub_diag; auto.
  - destruct (Nat.lt_ge_cases n (length s)).
    + now apply nth_error_app1.
    + assert (nth_error s n = None) as -> by (apply nth_error_None; lia). apply nth_error_None. rewrite app_length. cbn. lia.
Qed.
Lemma nth_error_len {A} (s : list A) : nth_error s (length s) = None.
Proof. apply nth_error_None. lia. Qed.
Lemma grow_eff (s : state) c s0 int : grown s (s ++ [fresh c s0 int]) c int.
Proof.
  split; unfold cbsof, nextof, insof, lastof, filtersof, clsof, aliveof, internalof; intros;
    try (rewrite nth_error_grow; destruct (Nat.eqb_spec n (length s)) as [->|]; [|reflexivity]; rewrite ?nth_error_len; cbn; auto).
  - rewrite app_length. cbn. lia.
  - rewrite nth_error_grow. destruct (Nat.eqb_spec g (length s)) as [->|]; [|reflexivity]. now rewrite nth_error_len.
  - rewrite nth_error_grow. destruct (Nat.eqb_spec g (length s)) as [->|]; [|reflexivity]. now rewrite nth_error_len.
  - destruct (nth_in_or_default i (repeat (@None (nat * nat)) (arity c)) None) as [H|H]; [|exact H].
    now apply repeat_spec in H.
  - rewrite nth_error_grow in H. destruct (Nat.eqb_spec n (length s)) as [->|]; [|auto]. injection H as <-. right. cbn. apply repeat_length.
Qed.
Lemma inv_grown h (s s' : state) c int : Inv h s -> grown s s' c int -> Inv h s'.
Proof.
  intros [A1 A2 A3 A4 A5 A6 A7 A8] [G0 G1 G2 G3 G4 G5 G6 G7 G8 G9]. unfold occ in *. split; unfold occ.
  - intros g. rewrite G1. auto.
  - intros g k t. rewrite G1, G2. apply A2.
  - intros g k t. rewrite G1, G7. intros H. rewrite (A3 _ _ _ H). now destruct (Nat.eqb g (length s)).
  - intros n x Hx. destruct (G9 n x Hx) as [Hx0|E]; eauto.
  - intros g k n i. rewrite G1, G3, G6, G8. intros H. destruct (A5 _ _ _ _ H) as (c' & D1 & D2).
    pose proof (clsof_lt _ _ _ D1). destruct (Nat.eqb_spec n (length s)); [lia|]. eauto.
  - intros n i g k. rewrite G3, G2. intros H. destruct (A6 _ _ _ _ H) as [D1 D2]. split; auto. intros t. rewrite G1. auto.
  - intros c' p k. rewrite G4, G2. intros H. destruct (A7 _ _ _ H) as [D1 D2]. split; auto. intros t. rewrite G1. auto.
  - intros g k c'. rewrite G1, G6, G4. intros H. destruct (A8 _ _ _ H) as [D1 D2].
    pose proof (clsof_lt _ _ _ D1). destruct (Nat.eqb_spec c' (length s)); [lia|]. auto.
Qed.

(** ** destruction *)
Record killed (s s' : state) (l : list nat) : Prop := mkKilled {
  kl_len : length s' = length s;
  kl_cbs : forall g, cbsof s' g = if existsb (Nat.eqb g) l then [] else cbsof s g;
  kl_next : forall g, nextof s' g = nextof s g;
  kl_ins : forall n i, insof s' n i = insof s n i;
  kl_last : forall n, lastof s' n = lastof s n;
  kl_filters : forall n, filtersof s' n = filtersof s n;
  kl_cls : forall n, clsof s' n = clsof s n;
  kl_alive : forall n, aliveof s' n = negb (existsb (Nat.eqb n) l) && aliveof s n;
  kl_int : forall n, internalof s' n = internalof s n;
  kl_insl : forall n x', nth_error s' n = Some x' -> exists x, nth_error s n = Some x /\ ins x' = ins x /\ cls x' = cls x
}.
Lemma kill_all_eff l : forall s : state, killed s (kill_all s l) l.
Proof.
  induction l as [|a l IH]; intros s; cbn [kill_all].
  - split; intros; cbn; eauto.
  - destruct (nth_error s a) as [x|] eqn:Hx.
    + destruct (IH (upd a (kill x) s)) as [K0 K1 K2 K3 K4 K5 K6 K7 K8 K9].
      assert (Hn : forall n, nth_error (upd a (kill x) s) n = if Nat.eqb n a then Some (kill x) else nth_error s n).
      { intros. eapply nth_upd_case; eauto. }
      split; intros.
      * now rewrite K0, upd_length.
      * rewrite K1. cbn [existsb]. unfold cbsof. rewrite Hn. destruct (Nat.eqb_spec g a) as [->|]; cbn; [now destruct (existsb _ l)|reflexivity].
      * rewrite K2. unfold nextof. rewrite Hn. destruct (Nat.eqb_spec g a) as [->|]; [rewrite Hx|]; reflexivity.
      * rewrite K3. unfold insof. rewrite Hn. destruct (Nat.eqb_spec n a) as [->|]; [rewrite Hx|]; reflexivity.
      * rewrite K4. unfold lastof. rewrite Hn. destruct (Nat.eqb_spec n a) as [->|]; [rewrite Hx|]; reflexivity.
      * rewrite K5. unfold filtersof. rewrite Hn. destruct (Nat.eqb_spec n a) as [->|]; [rewrite Hx|]; reflexivity.
      * rewrite K6. unfold clsof. rewrite Hn. destruct (Nat.eqb_spec n a) as [->|]; [rewrite Hx|]; reflexivity.
      * rewrite K7. cbn [existsb]. unfold aliveof. rewrite Hn. destruct (Nat.eqb_spec n a) as [->|]; cbn; [now rewrite andb_false_r|reflexivity].
      * rewrite K8. unfold internalof. rewrite Hn. destruct (Nat.eqb_spec n a) as [->|]; [rewrite Hx|]; reflexivity.
      * destruct (K9 n x' H) as (y & Hy & E1 & E2). rewrite Hn in Hy. destruct (Nat.eqb_spec n a) as [->|]; [|eauto].
        injection Hy as <-. exists x. auto.
    + destruct (IH s) as [K0 K1 K2 K3 K4 K5 K6 K7 K8 K9]. split; intros; auto.
      * rewrite K1. cbn [existsb]. destruct (Nat.eqb_spec g a) as [->|]; cbn; [|reflexivity].
        unfold cbsof. rewrite Hx. now destruct (existsb _ l).
      * rewrite K7. cbn [existsb]. destruct (Nat.eqb_spec n a) as [->|]; cbn; [|reflexivity].
        unfold aliveof. rewrite Hx. now rewrite andb_false_r.
Qed.
Lemma inv_killed h (s s' : state) l : Inv h s -> killed s s' l -> Inv h s'.
Proof.
  intros [A1 A2 A3 A4 A5 A6 A7 A8] [G0 G1 G2 G3 G4 G5 G6 G7 G8 G9].
  assert (Hocc : forall g k t, occ s' g k t -> occ s g k t /\ existsb (Nat.eqb g) l = false).
  { unfold occ. intros g k t. rewrite G1. destruct (existsb _ l); [intros []|auto]. }
  split.
  - intros g. rewrite G1. destruct (existsb _ l); [constructor|auto].
  - intros g k t H. rewrite G2. apply Hocc in H as [H _]. eauto.
  - intros g k t H. rewrite G7. apply Hocc in H as [H ->]. cbn. eauto.
  - intros n x Hx. destruct (G9 n x Hx) as (y & Hy & -> & ->). eauto.
  - intros g k n i H. rewrite G3, G6, G8. apply Hocc in H as [H _]. auto.
  - intros n i g k. rewrite G3, G2. intros H. destruct (A6 _ _ _ _ H) as [D1 D2]. split; auto. intros t Ho. apply Hocc in Ho as [Ho _]. auto.
  - intros c' p k. rewrite G4, G2. intros H. destruct (A7 _ _ _ H) as [D1 D2]. split; auto. intros t Ho. apply Hocc in Ho as [Ho _]. auto.
  - intros g k c' H. rewrite G6, G4. apply Hocc in H as [H _]. auto.
Qed.

(** ** adding a filter to the list of a chain *)
Record pushed (s s' : state) (c f p : nat) : Prop := mkPushed {
  pu_len : length s' = length s;
  pu_cbs : forall g, cbsof s' g = cbsof s g;
  pu_next : forall g, nextof s' g = nextof s g;
  pu_ins : forall n i, insof s' n i = insof s n i;
  pu_last : forall n, lastof s' n = lastof s n;
  pu_filters : forall n, filtersof s' n = if Nat.eqb n c then filtersof s c ++ [(f, p)] else filtersof s n;
  pu_cls : forall n, clsof s' n = clsof s n;
  pu_alive : forall n, aliveof s' n = aliveof s n;
  pu_int : forall n, internalof s' n = internalof s n;
  pu_insl : forall n x', nth_error s' n = Some x' -> exists x, nth_error s n = Some x /\ ins x' = ins x /\ cls x' = cls x
}.
Lemma push_eff (s : state) c x f p : live s c = Ok x -> pushed s (upd c (set_chain x (filters x ++ [(f, p)]) (last x)) s) c f p.
Proof.
  intros Hl. apply live_nth in Hl as [Hx _].
  assert (Hn : forall n y, nth_error (upd c y s) n = if Nat.eqb n c then Some y else nth_error s n).
  { intros. eapply nth_upd_case; eauto. }
  split; intros; unfold cbsof, nextof, insof, lastof, filtersof, clsof, aliveof, internalof; rewrite ?upd_length, ?Hn; auto;
    try (destruct (Nat.eqb_spec n c) as [->|]; [rewrite Hx|]; reflexivity).
  - destruct (Nat.eqb_spec g c) as [->|]; [rewrite Hx|]; reflexivity.
  - destruct (Nat.eqb_spec g c) as [->|]; [rewrite Hx|]; reflexivity.
  - rewrite Hn in H. destruct (Nat.eqb_spec n c) as [->|]; [|eauto]. injection H as <-. exists x. auto.
Qed.
Lemma inv_pushed h (s s' : state) c f p : Inv h s -> pushed s s' c f p -> Inv h s'.
Proof.
  intros [A1 A2 A3 A4 A5 A6 A7 A8] [G0 G1 G2 G3 G4 G5 G6 G7 G8 G9]. unfold occ in *. split; unfold occ.
  - intros g. rewrite G1. auto.
  - intros g k t. rewrite G1, G2. eauto.
  - intros g k t. rewrite G1, G7. eauto.
  - intros n x Hx. destruct (G9 n x Hx) as (y & Hy & -> & ->). eauto.
  - intros g k n i. rewrite G1, G3, G6, G8. auto.
  - intros n i g k. rewrite G3, G2. intros H. destruct (A6 _ _ _ _ H) as [D1 D2]. split; auto. intros t. rewrite G1. auto.
  - intros c' p' k. rewrite G4, G2. intros H. destruct (A7 _ _ _ H) as [D1 D2]. split; auto. intros t. rewrite G1. auto.
  - intros g k c'. rewrite G1, G6, G4. auto.
Qed.

(** ** message passing *)
Lemma views_wiring (s s' : state) : same_wiring s s' ->
  length s' = length s /\
  (forall n, cbsof s' n = cbsof s n) /\ (forall n, nextof s' n = nextof s n) /\ (forall n i, insof s' n i = insof s n i) /\
  (forall n, lastof s' n = lastof s n) /\ (forall n, filtersof s' n = filtersof s n) /\ (forall n, clsof s' n = clsof s n) /\
  (forall n, aliveof s' n = aliveof s n) /\ (forall n, internalof s' n = internalof s n).
Proof.
  intros H. assert (HL : length s' = length s).
  { apply (f_equal (@length _)) in H. now rewrite !map_length in H. }
  split; [exact HL|].
  assert (Hn : forall n, match nth_error s n, nth_error s' n with Some x, Some y => wire y = wire x | None, None => True | _, _ => False end).
  { intros n. destruct (nth_error s n) as [x|] eqn:E.
    - destruct (same_wiring_nth _ _ _ _ H E) as (y & -> & Hw). exact Hw.
    - apply nth_error_None in E. rewrite <- HL in E. apply nth_error_None in E. now rewrite E. }
  unfold cbsof, nextof, insof, lastof, filtersof, clsof, aliveof, internalof, wire in *.
  repeat split; intros n; try intros i; specialize (Hn n); destruct (nth_error s n), (nth_error s' n); try contradiction; auto;
    injection Hn; intros; cbn; congruence.
Qed.
Lemma inv_wiring h (s s' : state) : same_wiring s s' -> Inv h s -> Inv h s'.
Proof.
  intros HW [A1 A2 A3 A4 A5 A6 A7 A8]. destruct (views_wiring _ _ HW) as (_ & G1 & G2 & G3 & G4 & G5 & G6 & G7 & G8).
  unfold occ in *. split; unfold occ.
  - intros g. rewrite G1. auto.
  - intros g k t. rewrite G1, G2. eauto.
  - intros g k t. rewrite G1, G7. eauto.
  - intros n x Hx. destruct (same_wiring_nth _ _ _ _ (same_wiring_sym _ _ HW) Hx) as (y & Hy & Hw).
    unfold wire in Hw. injection Hw as _ E1 _ _ E2 _ _ _. rewrite <- E1, <- E2. eauto.
  - intros g k n i. rewrite G1, G3, G6, G8. auto.
  - intros n i g k. rewrite G3, G2. intros H. destruct (A6 _ _ _ _ H) as [D1 D2]. split; auto. intros t. rewrite G1. auto.
  - intros c' p' k. rewrite G4, G2. intros H. destruct (A7 _ _ _ H) as [D1 D2]. split; auto. intros t. rewrite G1. auto.
  - intros g k c'. rewrite G1, G6, G4. auto.
Qed.

(** ** addFilter *)
Lemma add_filter_eff h (s s' : state) c f s0 r xc xf :
  Inv h s -> user s c = Ok xc -> user s f = Ok xf -> add_filter s c f s0 = Ok (s', r) ->
  let h' := h ++ [AddFilter c f s0] in
  let p := length s in
  Inv h' s' /\ cls xc = Chain /\ r = length (filtersof s c) /\
  length s' = Datatypes.S p /\
  (forall n, clsof s' n = if Nat.eqb n p then Some PassThrough else clsof s n) /\
  (forall n, aliveof s' n = if Nat.eqb n p then true else aliveof s n) /\
  (forall n, internalof s' n = if Nat.eqb n p then true else internalof s n) /\
  (forall n, filtersof s' n = if Nat.eqb n c then filtersof s c ++ [(f, p)] else filtersof s n) /\
  (forall g k t, t <> ToOutput c -> (forall i, t <> ToInput p i) -> (forall i, t <> ToInput f i) -> occ s' g k t <-> occ s g k t) /\
  (exists k, occ s' f k (ToInput p 0)) /\
  (exists k, occ s' p k (ToOutput c)) /\
  (filtersof s c = [] -> forall g k i, occ s' g k (ToInput f i) -> occ s g k (ToInput f i)) /\
  (forall q a fl, rev (filtersof s c) = (a, q) :: fl ->
     (forall g k i, occ s' g k (ToInput f i) -> (replaces (cls xf) = false /\ occ s g k (ToInput f i)) \/ (i = 0 /\ g = q)) /\
     (cls xf <> Source -> exists k, occ s' q k (ToInput f 0))).
Proof.
  intros HI Huc Huf H h' p.
  destruct (user_view _ _ _ Huc) as (Lc & Nc & Cc & Ac & Ic & Hc). destruct (user_view _ _ _ Huf) as (Lf & Nf & Cf & Af & If & Hf).
  pose proof (inv_snoc h (AddFilter c f s0) s HI) as HI0. fold h' in HI0.
  unfold add_filter in H. rewrite Lc in H. cbn [bind] in H. destruct (cls xc) eqn:Ecls; try discriminate. rewrite Lf in H. cbn [bind] in H.
  fold p in H. set (s1 := s ++ [fresh PassThrough s0 true]) in *.
  pose proof (grow_eff s PassThrough s0 true) as Hg. fold s1 in Hg. pose proof (inv_grown h' _ _ _ _ HI0 Hg) as HI1.
  destruct Hg as [G0 G1 G2 G3 G4 G5 G6 G7 G8 _]. fold p in G0, G6, G7, G8.
  assert (Hocc1 : forall g k t, occ s1 g k t <-> occ s g k t) by (intros; unfold occ; now rewrite G1).
  destruct (live_view _ _ _ Lc) as (_ & _ & _ & _ & Vlast & Vfil & _).
  (* the old end is disconnected *)
  destruct (disconnect s1 (last xc)) as [s2|] eqn:Hd; [|discriminate]. cbn [bind] in H.
  assert (H2 : Inv h' s2 /\ stable s1 s2 /\ (forall n, lastof s2 n = lastof s1 n) /\
     (forall g k t, t <> ToOutput c -> occ s2 g k t <-> occ s1 g k t) /\ (forall g k, ~ occ s2 g k (ToOutput c))).
  { destruct (last xc) as [[q k0]|] eqn:El.
    - pose proof (disconnect_eff _ _ _ _ Hd) as Hr. pose proof (inv_removed _ _ _ _ _ HI1 Hr) as HI2. destruct Hr as [R1 R2 R3 R4 R5 R6].
      split; [auto|]. split; [auto|]. split; [auto|]. split.
      + intros g k t Ht. unfold occ. rewrite R2. destruct (Nat.eqb_spec g q) as [->|]; [|tauto].
        rewrite erase_in by apply (i_nodup _ _ HI1). split; [tauto|]. intros Hin. split; auto. intros ->.
        apply Ht. eapply (i_last _ _ HI1 c q k0); [rewrite G4, Vlast; auto|exact Hin].
      + intros g k Ho. assert (Ho1 : occ s1 g k (ToOutput c)).
        { unfold occ in *. rewrite R2 in Ho. destruct (Nat.eqb_spec g q) as [->|]; auto. eapply erase_sub; eauto. }
        destruct (i_out _ _ HI1 _ _ _ Ho1) as [_ E]. rewrite G4, Vlast in E. injection E as -> ->.
        unfold occ in Ho. rewrite R2, Nat.eqb_refl in Ho. apply erase_in in Ho as [_ Hne]; [congruence|apply (i_nodup _ _ HI1)].
    - cbn in Hd. injection Hd as <-. split; [auto|]. split; [apply stable_refl|]. split; [auto|]. split; [tauto|].
      intros g k Ho. destruct (i_out _ _ HI1 _ _ _ Ho) as [_ E]. rewrite G4, Vlast in E. discriminate. }
  destruct H2 as (HI2 & S2 & L2 & O2 & N2).
  (* the passthrough is connected to the filter *)
  destruct (connect_input s2 p [f]) as [s3|] eqn:Hc3; [|discriminate]. cbn [bind] in H.
  destruct (connect_input_eff h' s2 p [f] s3 PassThrough HI2 Hc3) as (HI3 & S3 & L3 & I3 & O3 & P3 & Q3 & _).
  { rewrite (sb_cls _ _ S2), G6. unfold p. now rewrite Nat.eqb_refl. }
  { discriminate. }
  { rewrite (sb_int _ _ S2), G8. unfold p. rewrite Nat.eqb_refl. discriminate. }
  (* the new end *)
  destruct (register s3 p (ToOutput c)) as [[s4 k4]|] eqn:Hr4; [|discriminate]. cbn [bind] in H.
  destruct (live s4 c) as [x4|] eqn:Hl4; [|discriminate]. cbn [bind] in H.
  pose proof (attach_out_eff _ _ _ _ _ _ Hr4 Hl4) as Ha5. set (s5 := upd c (set_chain x4 (filters x4) (Some (p, k4))) s4) in *.
  assert (HI5 : Inv h' s5).
  { eapply inv_attached_out; eauto.
    - rewrite (sb_cls _ _ S3), (sb_cls _ _ S2), G6. destruct (Nat.eqb_spec c p) as [E|]; [exfalso; unfold p in E; lia|]. now rewrite Cc.
    - intros g k Ho. apply O3 in Ho; [|discriminate]. eapply N2; eauto. }
  destruct Ha5 as [S5 _ _ T3 _ _ _ _]. pose proof (occ_snoc s3 s5 p k4 (ToOutput c) T3) as O5.
  assert (Hint5 : forall n, internalof s5 n = if Nat.eqb n p then true else internalof s n).
  { intros. now rewrite (sb_int _ _ S5), (sb_int _ _ S3), (sb_int _ _ S2), G8. }
  assert (Hcls5 : forall n, clsof s5 n = if Nat.eqb n p then Some PassThrough else clsof s n).
  { intros. now rewrite (sb_cls _ _ S5), (sb_cls _ _ S3), (sb_cls _ _ S2), G6. }
  assert (Hal5 : forall n, aliveof s5 n = if Nat.eqb n p then true else aliveof s n).
  { intros. now rewrite (sb_alive _ _ S5), (sb_alive _ _ S3), (sb_alive _ _ S2), G7. }
  assert (Hfil5 : forall n, filtersof s5 n = filtersof s n).
  { intros. now rewrite (sb_filters _ _ S5), (sb_filters _ _ S3), (sb_filters _ _ S2), G5. }
  assert (Hlen5 : length s5 = Datatypes.S p).
  { now rewrite (sb_len _ _ S5), (sb_len _ _ S3), (sb_len _ _ S2), G0. }
  assert (Hfp : f <> p) by (unfold p; lia).
  assert (Hother5 : forall g k t, t <> ToOutput c -> (forall i, t <> ToInput p i) -> occ s5 g k t <-> occ s g k t).
  { intros g k t H1 H2. rewrite O5, O3, O2, Hocc1 by auto. split; [intros [Ho|(_ & _ & E)]; [auto|congruence]|auto]. }
  assert (Hpass5 : exists k, occ s5 f k (ToInput p 0)).
  { destruct (Q3 ltac:(discriminate) 0 f eq_refl) as (k & Hk). exists k. apply O5. auto. }
  assert (Hend5 : occ s5 p k4 (ToOutput c)) by (apply O5; auto).
  assert (Hf5 : forall g k i, occ s5 g k (ToInput f i) <-> occ s g k (ToInput f i)).
  { intros. apply Hother5; [discriminate|]. intros i' E. injection E as E _. contradiction. }
  (* the filter is connected to the previous passthrough *)
  destruct (match rev (filters xc) with [] => Ok s5 | (_, q) :: _ => connect_input s5 f [q] end) as [s6|] eqn:Hc6; [|discriminate]. cbn [bind] in H.
  destruct (live s6 c) as [x6|] eqn:Hl6; [|discriminate]. cbn [bind] in H. injection H as <- <-.
  pose proof (push_eff s6 c x6 f p Hl6) as Hpu. set (s7 := upd c (set_chain x6 (filters x6 ++ [(f, p)]) (last x6)) s6) in *.
  assert (H6 : Inv h' s6 /\ stable s5 s6 /\
    (forall g k t, (forall i, t <> ToInput f i) -> occ s6 g k t <-> occ s5 g k t) /\
    (filtersof s c = [] -> forall g k i, occ s6 g k (ToInput f i) -> occ s5 g k (ToInput f i)) /\
    (forall q a fl, rev (filtersof s c) = (a, q) :: fl ->
     (forall g k i, occ s6 g k (ToInput f i) -> (replaces (cls xf) = false /\ occ s5 g k (ToInput f i)) \/ (i = 0 /\ g = q)) /\
     (cls xf <> Source -> exists k, occ s6 q k (ToInput f 0)))).
  { rewrite Vfil. destruct (rev (filters xc)) as [|[a q] fl] eqn:Erev.
    - injection Hc6 as <-. split; [auto|]. split; [apply stable_refl|]. split; [tauto|]. split; [auto|]. discriminate.
    - destruct (connect_input_eff h' s5 f [q] s6 (cls xf) HI5 Hc6) as (HI6 & S6 & _ & _ & O6 & P6 & Q6 & _).
      + rewrite Hcls5. destruct (Nat.eqb_spec f p); [contradiction|]. auto.
      + intros _ Ht g k i Ho. apply Hf5 in Ho. destruct (i_held _ _ HI _ _ _ _ Ho) as (_ & _ & _ & _ & D). specialize (D If).
        unfold h' in Ht. rewrite times_snoc in Ht. cbn [connects] in Ht. rewrite Nat.eqb_refl in Ht. lia.
      + intros _. unfold h'. rewrite times_snoc. cbn [connects]. rewrite Nat.eqb_refl. lia.
      + split; [auto|]. split; [auto|]. split; [auto|]. split.
        * intros E. rewrite E in Erev. discriminate.
        * intros q' a' fl' E. injection E as <- <- <-. split.
          -- intros g k i Ho. destruct (P6 g k i Ho) as [D|[_ D]]; [auto|]. destruct i as [|i]; [injection D as <-; auto|destruct i; discriminate].
          -- intros Hs. apply (Q6 Hs 0 q). reflexivity. }
  destruct H6 as (HI6 & S6 & O6 & E6 & R6). pose proof (inv_pushed _ _ _ _ _ _ HI6 Hpu) as HI7.
  destruct Hpu as [U0 U1 _ _ _ U5 U6 U7 U8 _].
  assert (O7 : forall g k t, occ s7 g k t <-> occ s6 g k t) by (intros; unfold occ; now rewrite U1).
  split; [exact HI7|]. split; [reflexivity|]. split; [now rewrite Vfil|].
  split; [now rewrite U0, (sb_len _ _ S6)|]. split; [intros; now rewrite U6, (sb_cls _ _ S6)|].
  split; [intros; now rewrite U7, (sb_alive _ _ S6)|]. split; [intros; now rewrite U8, (sb_int _ _ S6)|].
  split; [intros; now rewrite U5, !(sb_filters _ _ S6), !Hfil5|].
  split; [intros g k t H1 H2 H3; now rewrite O7, O6, Hother5 by auto|].
  split. { destruct Hpass5 as (k & Hk). exists k. apply O7, O6; auto. intros i E. injection E as E _. congruence. }
  split. { exists k4. apply O7, O6; auto. discriminate. }
  split. { intros E g k i Ho. apply O7 in Ho. apply Hf5. eauto. }
  intros q a fl E. destruct (R6 q a fl E) as [R6a R6b]. split.
  - intros g k i Ho. apply O7 in Ho. destruct (R6a g k i Ho) as [[D1 D2]|D]; [left|auto]. split; auto. now apply Hf5.
  - intros Hs. destruct (R6b Hs) as (k & Hk). exists k. now apply O7.
Qed.

(** ** every operation *)
Definition pushes (n p : nat) (o : op) : list (nat * nat) :=
  match o with AddFilter c f _ => if Nat.eqb c n then [(f, p)] else [] | _ => [] end.
Definition registers (p : U -> bool) (o : op) : bool := match o with Register _ u => p u | _ => false end.
Definition drops (g k : nat) (o : op) : bool := match o with Disconnect g' k' => Nat.eqb g' g && Nat.eqb k' k | _ => false end.

Record stepped (h : list op) (s s' : state) (o : op) : Prop := mkStepped {
  sp_inv : Inv (h ++ [o]) s';
  sp_len : length s <= length s';
  sp_cls : forall n, n < length s -> clsof s' n = clsof s n;
  sp_int : forall n, n < length s -> internalof s' n = internalof s n;
  sp_filters : forall n, filtersof s' n = filtersof s n ++ pushes n (length s) o;
  sp_dead : forall n, n < length s -> aliveof s' n = true -> aliveof s n = true;
  sp_alive : forall n, aliveof s n = true ->
    aliveof s' n = negb (destroys n o || existsb (fun c => destroys c o && existsb (Nat.eqb n) (map snd (filtersof s c))) (seq 0 (length s)));
  sp_keep_in : forall g k n i, occ s g k (ToInput n i) -> connects n o = false -> destroys n o = false -> aliveof s' g = true -> occ s' g k (ToInput n i);
  sp_keep_out : forall g k c, occ s g k (ToOutput c) -> extends_chain c o = false -> aliveof s' g = true -> occ s' g k (ToOutput c);
  sp_keep_user : forall g k u, occ s g k (ToUser u) -> drops g k o = false -> aliveof s' g = true -> occ s' g k (ToUser u);
  sp_new_in : forall g k n i, occ s' g k (ToInput n i) -> connects n o = false -> n < length s -> occ s g k (ToInput n i);
  sp_new_out : forall g k c, occ s' g k (ToOutput c) -> extends_chain c o = false -> occ s g k (ToOutput c);
  sp_new_user : forall g k u, occ s' g k (ToUser u) -> occ s g k (ToUser u) \/ o = Register g u;
  sp_gone : forall n c, destroys n o = true -> clsof s n = Some c -> detaches c = true ->
    (replaces c = true \/ times (connects n) h <= 1) -> forall g k i, ~ occ s' g k (ToInput n i);
  sp_new_int : forall n, length s <= n -> internalof s' n = true -> n = length s /\ exists c f s0, o = AddFilter c f s0;
  sp_new_alive : forall n, length s <= n -> n < length s' -> aliveof s' n = true
}.
Lemma internal_lt (s : state) n : internalof s n = true -> n < length s.
Proof. unfold internalof. intros H. apply nth_error_Some. destruct (nth_error s n); discriminate. Qed.

Lemma existsb_false {A} (l : list A) f : (forall x, In x l -> f x = false) -> existsb f l = false.
Proof. induction l as [|a l IH]; cbn; intros H; auto. rewrite (H a), IH; auto. Qed.

(** operations that only move messages or create filters keep the callbacks *)
Lemma stepped_same h (s s' : state) o :
  Inv (h ++ [o]) s' -> length s <= length s' ->
  (forall n, n < length s -> clsof s' n = clsof s n) -> (forall n, n < length s -> internalof s' n = internalof s n) ->
  (forall n, filtersof s' n = filtersof s n) -> (forall n, n < length s -> aliveof s' n = aliveof s n) ->
  (forall g k t, occ s' g k t <-> occ s g k t) ->
  (forall n, destroys n o = false) -> (forall n p, pushes n p o = []) ->
  (forall n, length s <= n -> internalof s' n = false) ->
  (forall n, length s <= n -> n < length s' -> aliveof s' n = true) ->
  stepped h s s' o.
Proof.
  intros H1 H2 H3 H4 H5 H6 H7 H8 H9 H10 H11. split; auto.
  - intros n. now rewrite H9, app_nil_r.
  - intros n Hn. now rewrite H6.
  - intros n Hn. rewrite H6, Hn by (now apply aliveof_lt). rewrite H8. cbn. rewrite existsb_false; auto. intros c _. now rewrite H8.
  - intros. now apply H7.
  - intros. now apply H7.
  - intros. now apply H7.
  - intros g k n i Ho _ _. now apply H7.
  - intros g k c Ho _. now apply H7.
  - intros g k u Ho. left. now apply H7.
  - intros n c Hd. rewrite H8 in Hd. discriminate.
  - intros n Hn Hi. rewrite H10 in Hi by auto. discriminate.
Qed.

Lemma step_connect h (s s' : state) n fs x : Inv h s -> user s n = Ok x -> connect_input s n fs = Ok s' -> stepped h s s' (ConnectInput n fs).
Proof.
  intros HI Hu Hc. destruct (user_view _ _ _ Hu) as (Ln & Nn & Cn & An & In_ & Hn).
  destruct (connect_input_eff (h ++ [ConnectInput n fs]) s n fs s' (cls x) (inv_snoc _ _ _ HI) Hc Cn) as (J1 & J2 & J3 & J4 & J5 & J6 & J7 & J8).
  { intros _ Ht g k i Ho. destruct (i_held _ _ HI _ _ _ _ Ho) as (_ & _ & _ & _ & D). specialize (D In_).
    rewrite times_snoc in Ht. cbn [connects] in Ht. rewrite Nat.eqb_refl in Ht. lia. }
  { intros _. rewrite times_snoc. cbn [connects]. rewrite Nat.eqb_refl. lia. }
  destruct J2 as [B0 B1 B2 B3 B4]. split; auto.
  - lia.
  - intros m. cbn. now rewrite app_nil_r.
  - intros m _. now rewrite B2.
  - intros m Hm. rewrite B2, Hm. cbn. rewrite existsb_false; auto.
  - intros g k m i Ho Hm _ _. apply J5; auto. intros i' E. injection E as -> ->. cbn in Hm. rewrite Nat.eqb_refl in Hm. discriminate.
  - intros g k c Ho _ _. apply J5; auto. discriminate.
  - intros g k u Ho _ _. apply J5; auto. discriminate.
  - intros g k m i Ho Hm _. apply J5 in Ho; auto. intros i' E. injection E as -> ->. cbn in Hm. rewrite Nat.eqb_refl in Hm. discriminate.
  - intros g k c Ho _. apply J5 in Ho; auto. discriminate.
  - intros g k u Ho. left. apply J5 in Ho; auto. discriminate.
  - intros m c Hd. discriminate.
  - intros m Hm Hi. apply internal_lt in Hi. lia.
  - intros m Hm Hi. lia.
Qed.

Lemma step_add_filter h (s s' : state) c f s0 r xc xf :
  Inv h s -> user s c = Ok xc -> user s f = Ok xf -> add_filter s c f s0 = Ok (s', r) -> stepped h s s' (AddFilter c f s0).
Proof.
  intros HI Huc Huf H. destruct (user_view _ _ _ Huc) as (_ & _ & _ & _ & _ & Hc). destruct (user_view _ _ _ Huf) as (_ & _ & _ & _ & _ & Hf).
  destruct (add_filter_eff h s s' c f s0 r xc xf HI Huc Huf H) as (J0 & J1 & J2 & J3 & J4 & J5 & J6 & J7 & J8 & J9 & J10 & J11 & J12).
  assert (Hp : forall m, m < length s -> Nat.eqb m (length s) = false) by (intros m Hm; apply Nat.eqb_neq; lia).
  split; auto.
  - lia.
  - intros m Hm. now rewrite J4, Hp.
  - intros m Hm. now rewrite J6, Hp.
  - intros m. rewrite J7. cbn. rewrite (Nat.eqb_sym c m). destruct (Nat.eqb_spec m c) as [->|]; [reflexivity|now rewrite app_nil_r].
  - intros m Hm. now rewrite J5, Hp.
  - intros m Hm. rewrite J5, Hp, Hm by (now apply aliveof_lt). cbn. rewrite existsb_false; auto.
  - intros g k m i Ho Hm _ _. apply J8; auto; [discriminate| |].
    + intros i' E. injection E as -> ->. destruct (i_held _ _ HI _ _ _ _ Ho) as (c' & D & _). apply clsof_lt in D. lia.
    + intros i' E. injection E as -> ->. cbn in Hm. rewrite Nat.eqb_refl in Hm. discriminate.
  - intros g k m Ho Hm _. apply J8; auto; try discriminate. intros E. injection E as ->. cbn in Hm. rewrite Nat.eqb_refl in Hm. discriminate.
  - intros g k u Ho _ _. apply J8; auto; discriminate.
  - intros g k m i Ho Hm Hlt. apply J8 in Ho; auto; [discriminate| |].
    + intros i' E. injection E as -> ->. lia.
    + intros i' E. injection E as -> ->. cbn in Hm. rewrite Nat.eqb_refl in Hm. discriminate.
  - intros g k m Ho Hm. apply J8 in Ho; auto; try discriminate. intros E. injection E as ->. cbn in Hm. rewrite Nat.eqb_refl in Hm. discriminate.
  - intros g k u Ho. left. apply J8 in Ho; auto; discriminate.
  - intros m c' Hd. discriminate.
  - intros m Hm Hi. apply internal_lt in Hi. split; [lia|eauto].
  - intros m Hm Hi. rewrite J5. assert (m = length s) as -> by lia. now rewrite Nat.eqb_refl.
Qed.

Lemma step_destroy h (s s1 : state) n x x1 :
  Inv h s -> user s n = Ok x -> (if detaches (cls x) then disconnect_all s (ins x) else Ok s) = Ok s1 -> live s1 n = Ok x1 ->
  stepped h s (kill_all s1 (n :: map snd (filters x1))) (Destroy n).
Proof.
  intros HI Hu Hd Hl1. destruct (user_view _ _ _ Hu) as (Ln & Nn & Cn & An & In_ & Hn).
  pose proof (inv_snoc h (Destroy n) s HI) as HI0.
  assert (H1 : Inv (h ++ [Destroy n]) s1 /\ stable s s1 /\
     (forall g k t, (forall i, t <> ToInput n i) -> occ s1 g k t <-> occ s g k t) /\
     (forall g k t, occ s1 g k t -> occ s g k t) /\
     (detaches (cls x) = true -> replaces (cls x) = true \/ times (connects n) h <= 1 -> forall g k i, ~ occ s1 g k (ToInput n i))).
  { destruct (detaches (cls x)).
    - destruct (disconnect_all_eff _ _ _ _ HI0 Hd) as (J1 & J2 & J3 & J4 & J5 & J6 & J7). split; [auto|]. split; [auto|]. split; [|split].
      + intros g k t Ht. rewrite J7. split; [tauto|]. intros Ho. split; auto. intros Hin.
        apply In_nth with (d := None) in Hin as (i & Hi & E). apply (Ht i). eapply (i_owner _ _ HI n i g k); eauto. unfold insof. now rewrite Nn.
      + intros g k t Ho. apply J7 in Ho. tauto.
      + intros _ Hcond g k i Ho. apply J7 in Ho as [Ho Hni]. destruct (i_held _ _ HI _ _ _ _ Ho) as (c' & D1 & D2 & D3 & _).
        rewrite Cn in D1. injection D1 as <-. specialize (D3 Hcond). unfold insof in D3. rewrite Nn in D3. apply Hni. rewrite <- D3. apply nth_In.
        now rewrite (i_insl _ _ HI n x Nn).
    - injection Hd as <-. split; [auto|]. split; [apply stable_refl|]. split; [tauto|]. split; [auto|]. discriminate. }
  destruct H1 as (HI1 & [B0 B1 B2 B3 B4] & O1 & O1' & N1).
  set (l := n :: map snd (filters x1)). pose proof (kill_all_eff l s1) as HK. pose proof (inv_killed _ _ _ _ HI1 HK) as HI2.
  destruct HK as [K0 K1 _ _ _ K5 K6 K7 K8 _].
  assert (Hocc : forall g k t, occ (kill_all s1 l) g k t <-> occ s1 g k t /\ existsb (Nat.eqb g) l = false).
  { intros g k t. unfold occ. rewrite K1. destruct (existsb _ l); split; try tauto; [intros []|intros [_ E]; discriminate]. }
  assert (Hal : forall g, aliveof (kill_all s1 l) g = true -> existsb (Nat.eqb g) l = false).
  { intros g. rewrite K7. destruct (existsb _ l); [discriminate|auto]. }
  assert (Hfl : map snd (filters x1) = map snd (filtersof s n)).
  { destruct (live_view _ _ _ Hl1) as (_ & _ & _ & _ & _ & V & _). now rewrite <- V, B4. }
  split; auto.
  - now rewrite K0, B0.
  - intros m _. now rewrite K6.
  - intros m _. now rewrite K8.
  - intros m. rewrite K5, B4. cbn. now rewrite app_nil_r.
  - intros m _. rewrite K7, B2. now intros [_ H]%andb_true_iff.
  - intros m Hm. rewrite K7, B2, Hm, andb_true_r. f_equal. unfold l. cbn [existsb destroys]. rewrite Hfl, (Nat.eqb_sym m n).
    f_equal. apply eq_true_iff_eq. split.
    + intros E. apply existsb_exists. exists n. rewrite in_seq, Nat.eqb_refl. split; [lia|exact E].
    + intros E0. apply existsb_exists in E0 as (c & _ & E). apply andb_true_iff in E as [E1 E2]. apply Nat.eqb_eq in E1. now subst.
  - intros g k m i Ho _ Hm Hg. apply Hocc. split; auto. apply O1; auto. intros i' E. injection E as -> ->. cbn in Hm. rewrite Nat.eqb_refl in Hm. discriminate.
  - intros g k c Ho _ Hg. apply Hocc. split; auto. apply O1; auto. discriminate.
  - intros g k u Ho _ Hg. apply Hocc. split; auto. apply O1; auto. discriminate.
  - intros g k m i Ho _ _. apply Hocc in Ho as [Ho _]. auto.
  - intros g k c Ho _. apply Hocc in Ho as [Ho _]. auto.
  - intros g k u Ho. left. apply Hocc in Ho as [Ho _]. auto.
  - intros m c Hm Hc Hdet Hcond g k i Ho. cbn in Hm. apply Nat.eqb_eq in Hm. subst m. rewrite Cn in Hc. injection Hc as <-.
    apply Hocc in Ho as [Ho _]. eapply N1; eauto.
  - intros m Hm Hi. apply internal_lt in Hi. lia.
  - intros m Hm. rewrite K0, B0. lia.
Qed.

Lemma step_stepped fuel h (s s' : state) o r tr : Inv h s -> step fuel s o = Ok (s', r, tr) -> stepped h s s' o.
Proof.
  intros HI H. pose proof (inv_snoc h o s HI) as HI0.
  assert (Hwire : same_wiring s s' -> (forall n, destroys n o = false) -> (forall n p, pushes n p o = []) -> stepped h s s' o).
  { intros HW H1 H2. destruct (views_wiring _ _ HW) as (V0 & V1 & V2 & V3 & V4 & V5 & V6 & V7 & V8).
    apply stepped_same; auto; [eapply inv_wiring; eauto|lia| | |lia].
    - intros g k t. unfold occ. now rewrite V1.
    - intros n Hn. destruct (internalof s' n) eqn:E; auto. apply internal_lt in E. lia. }
  destruct o as [c s0|n fs|c f s0|c i|n u|n k|n i m|n m|n]; cbn [step] in H.
  - injection H as <- <- <-. pose proof (grow_eff s c s0 false) as Hg. pose proof (inv_grown _ _ _ _ _ HI0 Hg) as HI1.
    destruct Hg as [G0 G1 G2 G3 G4 G5 G6 G7 G8 _].
    assert (Hp : forall m, m < length s -> Nat.eqb m (length s) = false) by (intros m Hm; apply Nat.eqb_neq; lia).
    apply stepped_same; auto.
    + lia.
    + intros m Hm. now rewrite G6, Hp.
    + intros m Hm. now rewrite G8, Hp.
    + intros m Hm. now rewrite G7, Hp.
    + intros g k t. unfold occ. now rewrite G1.
    + intros m Hm. rewrite G8. destruct (Nat.eqb_spec m (length s)); auto. destruct (internalof s m) eqn:E; auto. apply internal_lt in E. lia.
    + intros m Hm Hm'. rewrite G7. assert (m = length s) as -> by lia. now rewrite Nat.eqb_refl.
  - destruct (user s n) as [x|] eqn:Hu; [|discriminate]. cbn [bind] in H. destruct (all_users s fs); [|discriminate]. cbn [bind] in H.
    destruct (connect_input s n fs) as [s1|] eqn:Hc; [|discriminate]. cbn [bind] in H. injection H as <- <- <-. eapply step_connect; eauto.
  - destruct (user s c) as [xc|] eqn:Huc; [|discriminate]. cbn [bind] in H. destruct (user s f) as [xf|] eqn:Huf; [|discriminate]. cbn [bind] in H.
    destruct (add_filter s c f s0) as [[s1 i1]|] eqn:Ha; [|discriminate]. cbn [bind] in H. injection H as <- <- <-. eapply step_add_filter; eauto.
  - destruct (user s c) as [x|] eqn:Hu; [|discriminate]. cbn [bind] in H. destruct (cls x); try discriminate. injection H as <- <- <-.
    apply Hwire; auto. apply same_wiring_refl.
  - destruct (user s n) as [x|] eqn:Hu; [|discriminate]. cbn [bind] in H. destruct (register s n (ToUser u)) as [[s1 k]|] eqn:Hr; [|discriminate].
    cbn [bind] in H. injection H as <- <- <-. pose proof (register_eff _ _ _ _ _ Hr) as Hreg. pose proof (inv_user _ _ _ _ _ _ HI0 Hreg) as HI1.
    destruct Hreg as [[B0 B1 B2 B3 B4] _ _ R3 _ _ _ _]. pose proof (occ_snoc s s1 n k (ToUser u) R3) as Hocc. split; auto.
    + lia.
    + intros m. cbn. now rewrite app_nil_r.
    + intros m _. now rewrite B2.
    + intros m Hm. rewrite B2, Hm. cbn. rewrite existsb_false; auto.
    + intros. apply Hocc. auto.
    + intros. apply Hocc. auto.
    + intros. apply Hocc. auto.
    + intros g k' m i Ho _ _. apply Hocc in Ho as [Ho|(_ & _ & E)]; [auto|discriminate].
    + intros g k' c Ho _. apply Hocc in Ho as [Ho|(_ & _ & E)]; [auto|discriminate].
    + intros g k' u' Ho. apply Hocc in Ho as [Ho|(-> & _ & E)]; [auto|]. injection E as ->. auto.
    + intros m c Hd. discriminate.
    + intros m Hm Hi. apply internal_lt in Hi. lia.
    + intros m Hm Hi. lia.
  - destruct (user s n) as [x|] eqn:Hu; [|discriminate]. cbn [bind] in H. destruct (forallb _ (cbs x)) eqn:Hf; [|discriminate].
    destruct (disconnect s (Some (n, k))) as [s1|] eqn:Hd; [|discriminate]. cbn [bind] in H. injection H as <- <- <-.
    pose proof (disconnect_eff _ _ _ _ Hd) as Hr. pose proof (inv_removed _ _ _ _ _ HI0 Hr) as HI1. destruct Hr as [[B0 B1 B2 B3 B4] R2 _ _ _ _].
    destruct (user_view _ _ _ Hu) as (Ln & Nn & _). destruct (live_view _ _ _ Ln) as (_ & _ & _ & _ & _ & _ & _ & Vc).
    assert (Hocc : forall g k' t, occ s1 g k' t <-> occ s g k' t /\ ~ (g = n /\ k' = k)).
    { intros g k' t. unfold occ. rewrite R2. destruct (Nat.eqb_spec g n) as [->|]; [|tauto].
      rewrite erase_in by apply (i_nodup _ _ HI). tauto. }
    assert (Hus : forall k' t, occ s n k' t -> is_user t = false -> k' <> k).
    { intros k' t Ho Ht ->. unfold occ in Ho. rewrite Vc in Ho. rewrite forallb_forall in Hf. specialize (Hf _ Ho). cbn in Hf.
      rewrite Nat.eqb_refl, Ht in Hf. discriminate. }
    split; auto.
    + lia.
    + intros m. cbn. now rewrite app_nil_r.
    + intros m _. now rewrite B2.
    + intros m Hm. rewrite B2, Hm. cbn. rewrite existsb_false; auto.
    + intros g k' m i Ho _ _ _. apply Hocc. split; auto. intros [-> ->]. eapply Hus; eauto.
    + intros g k' c Ho _ _. apply Hocc. split; auto. intros [-> ->]. eapply Hus; eauto.
    + intros g k' u Ho Hdr _. apply Hocc. split; auto. intros [-> ->]. cbn in Hdr. now rewrite !Nat.eqb_refl in Hdr.
    + intros g k' m i Ho _ _. apply Hocc in Ho. tauto.
    + intros g k' c Ho _. apply Hocc in Ho. tauto.
    + intros g k' u Ho. apply Hocc in Ho. tauto.
    + intros m c Hdd. discriminate.
    + intros m Hm Hi. apply internal_lt in Hi. lia.
    + intros m Hm Hi. lia.
  - destruct (user s n) as [x|] eqn:Hu; [|discriminate]. cbn [bind] in H. destruct (i <? arity (cls x)); [|discriminate].
    destruct (deliver fuel s [] (ToInput n i) m) as [[s1 tr1]|] eqn:Hd; [|discriminate]. cbn [bind] in H. injection H as <- <- <-.
    apply Hwire; auto. apply deliver_sound in Hd. eapply (proj1 flow_wiring); eauto.
  - destruct (user s n) as [x|] eqn:Hu; [|discriminate]. cbn [bind] in H. destruct (emits (cls x)); [|discriminate].
    destruct (emit (deliver fuel) s [] n m) as [[s1 tr1]|] eqn:Hd; [|discriminate]. cbn [bind] in H. injection H as <- <- <-.
    apply Hwire; auto. apply (emit_sound (deliver fuel) (deliver_sound fuel)) in Hd. eapply (proj1 (proj2 flow_wiring)); eauto.
  - destruct (user s n) as [x|] eqn:Hu; [|discriminate]. cbn [bind] in H.
    destruct (if detaches (cls x) then disconnect_all s (ins x) else Ok s) as [s1|] eqn:Hd; [|discriminate]. cbn [bind] in H.
    destruct (live s1 n) as [x1|] eqn:Hl; [|discriminate]. cbn [bind] in H. injection H as <- <- <-. eapply step_destroy; eauto.
Qed.

(** ** programs *)
Lemma run_app fuel h1 : forall h2 (s s2 : state) rs, run fuel s (h1 ++ h2) = Ok (s2, rs) ->
  exists s1 rs1 rs2, run fuel s h1 = Ok (s1, rs1) /\ run fuel s1 h2 = Ok (s2, rs2) /\ rs = rs1 ++ rs2 /\ length rs1 = length h1.
Proof.
  induction h1 as [|o h1 IH]; intros h2 s s2 rs H; cbn [app run] in *.
  - exists s, [], rs. auto.
  - destruct (step fuel s o) as [[[s1 r] tr]|]; [|discriminate]. cbn [bind] in *.
    destruct (run fuel s1 (h1 ++ h2)) as [[s3 rs3]|] eqn:E; [|discriminate]. cbn [bind] in H. injection H as <- <-.
    destruct (IH _ _ _ _ E) as (sa & ra & rb & H1 & H2 & -> & H3). rewrite H1. cbn [bind].
    exists sa, ((r, tr) :: ra), rb. cbn. auto.
Qed.
Lemma run_snoc fuel h o (s s2 : state) rs : run fuel s (h ++ [o]) = Ok (s2, rs) ->
  exists s1 rs1 r tr, run fuel s h = Ok (s1, rs1) /\ step fuel s1 o = Ok (s2, r, tr) /\ rs = rs1 ++ [(r, tr)] /\ length rs1 = length h.
Proof.
  intros H. apply run_app in H as (s1 & rs1 & rs2 & H1 & H2 & -> & H3). cbn [run] in H2.
  destruct (step fuel s1 o) as [[[s3 r] tr]|] eqn:E; [|discriminate]. cbn [bind] in H2. injection H2 as <- <-.
  exists s1, rs1, r, tr. auto.
Qed.
Lemma run_cat fuel h1 h2 (s s1 s2 : state) rs1 rs2 : run fuel s h1 = Ok (s1, rs1) -> run fuel s1 h2 = Ok (s2, rs2) -> run fuel s (h1 ++ h2) = Ok (s2, rs1 ++ rs2).
Proof.
  revert s rs1. induction h1 as [|o h1 IH]; intros s rs1 H1 H2; cbn [app run] in *.
  - injection H1 as <- <-. exact H2.
  - destruct (step fuel s o) as [[[s3 r] tr]|]; [|discriminate]. cbn [bind] in *.
    destruct (run fuel s3 h1) as [[s4 rs4]|] eqn:E; [|discriminate]. cbn [bind] in H1. injection H1 as <- <-.
    rewrite (IH _ _ E H2). reflexivity.
Qed.

Lemma inv_init : Inv [] ([] : state).
Proof.
  assert (Hn : forall n, nth_error ([] : state) n = None) by (intros [|n]; reflexivity).
  assert (Hc : forall n, cbsof ([] : state) n = []) by (intros n; unfold cbsof; now rewrite Hn).
  split; unfold occ; intros *; rewrite ?Hc; try (now intros []).
  - constructor.
  - rewrite Hn. discriminate.
  - unfold insof. rewrite Hn. discriminate.
  - unfold lastof. rewrite Hn. discriminate.
Qed.
Theorem run_inv fuel h : forall (s : state) rs, run fuel [] h = Ok (s, rs) -> Inv h s.
Proof.
  induction h as [|o h IH] using rev_ind; intros s rs H.
  - cbn in H. injection H as <- <-. apply inv_init.
  - apply run_snoc in H as (s1 & rs1 & r & tr & H1 & H2 & _ & _). eapply sp_inv, step_stepped; eauto.
Qed.
End Proofs.
