(** User callbacks, messages added by hand, and the lifetime of filters. *)
From Coq Require Import List Arith Lia Bool.
From Verif Require Import Base Net_Model Net_Spec Net_Flow Net_Wiring Net_Proofs Net_Chain Net_Streams Net_Links.
Import ListNotations.

Section Life.
Context {S M U : Type}.
Notation target := (target U).
Notation node := (node S M U).
Notation state := (state S M U).
Notation obs := (obs M U).
Notation op := (op S M U).
Notation class := (class S M).

(** ** user callbacks *)
Definition is_user_of (p : U -> bool) (t : target) : bool := match t with ToUser u => p u | _ => false end.
Lemma acts_calls p (tr : list obs) : acts (is_user_of p) tr = calls p tr.
Proof. unfold acts, calls. apply flat_map_ext. intros [u m|n i m|n m]; reflexivity. Qed.
Lemma calls_app p (a b : list obs) : calls p (a ++ b) = calls p a ++ calls p b.
Proof. apply flat_map_app. Qed.

Lemma keep_user fuel h2 g k u : forall h1 (s1 s2 : state) rs1 rs2,
  run fuel [] h1 = Ok (s1, rs1) -> run fuel s1 h2 = Ok (s2, rs2) ->
  never (drops g k) h2 -> occ s1 g k (ToUser u) -> aliveof s2 g = true -> occ s2 g k (ToUser u).
Proof.
  induction h2 as [|o h2 IH] using rev_ind; intros h1 s1 s2 rs1 rs2 H1 H2 Hd Ho Hg.
  - cbn in H2. now injection H2 as <- <-.
  - apply run_snoc in H2 as (sa & rsa & r & tr & Ha & Hs & _ & _). apply never_snoc in Hd as [Hd Hd'].
    pose proof (run_inv _ _ _ _ (run_cat _ _ _ _ _ _ _ _ H1 Ha)) as HI. pose proof (step_stepped _ _ _ _ _ _ _ HI Hs) as HS.
    apply (sp_keep_user _ _ _ _ HS); auto. apply (IH h1 s1 sa rs1 rsa); auto.
    assert (Lg : g < length sa).
    { apply (i_dead _ _ (run_inv _ _ _ _ H1)) in Ho. apply aliveof_lt in Ho. destruct (run_len _ _ _ _ _ _ _ _ H1 eq_refl Ha) as [L _]. lia. }
    now apply (sp_dead _ _ _ _ HS).
Qed.
Lemma no_new_user fuel h2 (p : U -> bool) g k u : forall h1 (s1 s2 : state) rs1 rs2,
  run fuel [] h1 = Ok (s1, rs1) -> run fuel s1 h2 = Ok (s2, rs2) -> never (registers p) h2 -> p u = true ->
  occ s2 g k (ToUser u) -> occ s1 g k (ToUser u).
Proof.
  induction h2 as [|o h2 IH] using rev_ind; intros h1 s1 s2 rs1 rs2 H1 H2 Hn Hu Ho.
  - cbn in H2. now injection H2 as <- <-.
  - apply run_snoc in H2 as (sa & rsa & r & tr & Ha & Hs & _ & _). apply never_snoc in Hn as [Hn Hn'].
    pose proof (run_inv _ _ _ _ (run_cat _ _ _ _ _ _ _ _ H1 Ha)) as HI. pose proof (step_stepped _ _ _ _ _ _ _ HI Hs) as HS.
    destruct (sp_new_user _ _ _ _ HS _ _ _ Ho) as [Ho'| ->]; [eapply IH; eauto|]. cbn in Hn'. congruence.
Qed.

Theorem register_streams fuel h1 g u h2 (s : state) rs (p : U -> bool) k tr0 :
  run fuel [] (h1 ++ Register g u :: h2) = Ok (s, rs) ->
  nth_error rs (length h1) = Some (Connected k, tr0) ->
  p u = true -> never (registers p) h1 -> never (registers p) h2 -> never (drops g k) h2 ->
  calls p (trace (skipn (Datatypes.S (length h1)) rs)) = outputs g (trace (skipn (Datatypes.S (length h1)) rs)).
Proof.
  intros Hrun Hk Hu Hn1 Hn2 Hd. set (o0 := Register g u) in *.
  replace (h1 ++ o0 :: h2) with ((h1 ++ [o0]) ++ h2) in * by (now rewrite <- app_assoc).
  apply run_app in Hrun as (s1 & rs1 & rs2 & H1 & H2 & -> & L1). rewrite app_length in L1. cbn in L1.
  replace (skipn (Datatypes.S (length h1)) (rs1 ++ rs2)) with rs2.
  2:{ replace (Datatypes.S (length h1)) with (length rs1) by lia. rewrite skipn_app, skipn_all, Nat.sub_diag. reflexivity. }
  pose proof H1 as H1'. apply run_snoc in H1' as (s0 & rs0 & r0 & tr1 & H0 & Hstep & E0 & L0).
  rewrite E0 in Hk. rewrite nth_error_app1 in Hk by (rewrite app_length; cbn; lia). rewrite <- L0 in Hk. rewrite nth_error_app2, Nat.sub_diag in Hk by lia.
  cbn in Hk. injection Hk as -> ->.
  unfold o0 in Hstep. cbn [step] in Hstep. destruct (user s0 g) as [x|] eqn:Hux; [|discriminate]. cbn [bind] in Hstep.
  destruct (register s0 g (ToUser u)) as [[s1' k']|] eqn:Hr; [|discriminate]. cbn [bind] in Hstep. injection Hstep as -> -> _.
  destruct (register_eff _ _ _ _ _ Hr) as [SB _ _ R3 _ _ _ _]. pose proof (occ_snoc s0 s1 g k (ToUser u) R3) as Hocc.
  assert (Hone : forall g' k' u', p u' = true -> occ s1 g' k' (ToUser u') -> g' = g /\ k' = k).
  { intros g' k' u' Hp Ho. apply Hocc in Ho as [Ho|(-> & -> & _)]; auto. exfalso.
    eapply (no_new_user fuel h1 p g' k' u' [] []) in Ho; eauto; [|reflexivity]. unfold occ, cbsof in Ho. now destruct g'. }
  apply (run_streams (calls p) (outputs g) fuel h2 (h1 ++ [o0]) [] s1 s rs1 rs2); auto using calls_app, outputs_app.
  intros ha o hb sa rsa sb r tr E Hra Hrb Hs. rewrite <- acts_calls.
  assert (Hna : never (registers p) ha /\ never (drops g k) ha) by (rewrite E in Hn2, Hd; apply never_app in Hn2, Hd; tauto).
  assert (Hone' : forall g' k' u', p u' = true -> occ sa g' k' (ToUser u') -> g' = g /\ k' = k).
  { intros g' k' u' Hp Ho. eapply no_new_user in Ho; [| exact H1|exact Hrb|apply Hna|exact Hp]. eauto. }
  apply (step_fed _ _ fuel sa sb o r); auto.
  - apply (fed_intro ((h1 ++ [o0]) ++ ha)); [eapply run_inv; eauto| | | | |].
    + intros g' k' t Ho Hh. destruct t as [u'|n i|n]; try discriminate. eapply Hone'; eauto.
    + intros k1 k2 t t' Ho Ho' Hh Hh'. destruct t as [u1|n i|n]; try discriminate. destruct t' as [u2|n i|n]; try discriminate.
      destruct (Hone' _ _ _ Hh Ho) as [_ ->]. destruct (Hone' _ _ _ Hh' Ho') as [_ ->]. reflexivity.
    + intros Ha. exists k, (ToUser u). split; auto. eapply keep_user; [exact H1|exact Hrb|apply Hna| |exact Ha]. apply Hocc. auto.
    + intros c a q fl _. reflexivity.
    + intros n _ Hh. discriminate.
  - destruct o; reflexivity.
Qed.

(** ** filters fed by hand only *)
Lemma step_direct h hit fuel (s s' : state) o r tr : Inv h s ->
  (forall g k t, occ s g k t -> hit t = false) ->
  (forall c a p fl, filtersof s c = (a, p) :: fl -> hit (ToInput a 0) = false) ->
  (forall n, hit (ToOutput n) = false) ->
  step fuel s o = Ok (s', r, tr) -> acts hit tr = match o with Add n i m => if hit (ToInput n i) then [m] else [] | _ => [] end.
Proof.
  intros HI H1 H2 H3 H. pose proof (unfed_intro h s hit HI H1 H2 (fun n _ => H3 n)) as HF.
  assert (Hl : aliveof s (length s) = false) by (destruct (aliveof s (length s)) eqn:E; auto; apply aliveof_lt in E; lia).
  pose proof (step_outputs_dead _ _ _ _ _ _ _ H Hl) as Hout.
  destruct (step_trace _ _ _ _ _ _ H) as [(n & i & m & -> & Hd)|[(n & m & -> & Hd)| ->]].
  - rewrite (proj1 (flow_fed hit (length s)) _ _ _ _ _ _ Hd HF), Hout, app_nil_r. reflexivity.
  - rewrite (proj1 (proj2 (flow_fed hit (length s))) _ _ _ _ _ _ Hd HF), Hout, app_nil_r, H3. reflexivity.
  - destruct o; auto. cbn [step] in H. destruct (user s n) as [x|] eqn:Hu; [|discriminate]. cbn [bind] in H. destruct (i <? arity (cls x)); [|discriminate].
    destruct (deliver fuel s [] (ToInput n i) m) as [[s1 tr1]|] eqn:Hd; [|discriminate]. cbn [bind] in H. injection H as <- <- ->.
    apply deliver_sound in Hd. rewrite (proj1 (flow_fed hit (length s)) _ _ _ _ _ _ Hd HF), Hout, app_nil_r. reflexivity.
Qed.

Theorem direct_streams fuel h1 h2 n (s1 s2 : state) rs1 rs2 i :
  run fuel [] h1 = Ok (s1, rs1) -> run fuel s1 h2 = Ok (s2, rs2) ->
  n < length s1 -> internalof s1 n = false -> never (connects n) (h1 ++ h2) ->
  inputs n i (trace rs2) = adds n i h2.
Proof.
  intros H1 H2 Hn Hi Hc.
  assert (Hgen : forall hb ha, h2 = ha ++ hb -> forall sa rsa, run fuel s1 ha = Ok (sa, rsa) -> inputs n i (trace rsa) = adds n i ha).
  { intros hb ha. revert hb. induction ha as [|o ha IH] using rev_ind; intros hb E sa rsa Ha.
    - cbn in Ha. now injection Ha as <- <-.
    - apply run_snoc in Ha as (sb & rsb & r & tr & Hb & Hs & -> & _). rewrite <- app_assoc in E. cbn in E. pose proof (run_cat _ _ _ _ _ _ _ _ H1 Hb) as Hr.
      unfold trace, adds. rewrite !flat_map_app, inputs_app. cbn [flat_map snd]. rewrite !app_nil_r. f_equal; [eapply IH; eauto|].
      pose proof (run_inv _ _ _ _ Hr) as HI. pose proof (run_chains _ _ _ _ Hr) as HC.
      assert (Hca : times (connects n) (h1 ++ ha) = 0) by (apply times_never; rewrite E, app_assoc in Hc; apply never_app in Hc; tauto).
      rewrite <- acts_inputs. rewrite (step_direct (h1 ++ ha) (is_input n i) fuel sb sa o r tr HI); auto.
      + intros g k t Ho. destruct (is_input n i t) eqn:Eh; auto. apply is_input_true in Eh. subst t.
        destruct (i_held _ _ HI _ _ _ _ Ho) as (c & _ & _ & _ & D). destruct (run_len _ _ _ _ _ _ _ _ H1 eq_refl Hb) as [_ RL].
        destruct (RL n Hn) as (_ & E2 & _). rewrite E2 in D. specialize (D Hi). lia.
      + apply (not_first (h1 ++ ha)); auto. apply times_never. pose proof (joins_le n (h1 ++ ha)). lia. }
  apply (Hgen [] h2 (eq_sym (app_nil_r h2)) _ _ H2).
Qed.

(** ** no message reaches a destroyed filter *)
Record sound (s : state) : Prop := mkSound {
  so_in : forall g k n i, occ s g k (ToInput n i) -> aliveof s n = true;
  so_out : forall g k n, occ s g k (ToOutput n) -> aliveof s n = true;
  so_first : forall c f p fl, aliveof s c = true -> filtersof s c = (f, p) :: fl -> aliveof s f = true
}.
Definition target_alive (s : state) (t : target) : Prop :=
  match t with ToUser _ => True | ToInput n _ | ToOutput n => aliveof s n = true end.
Lemma sound_wiring s s' : same_wiring s s' -> sound s -> sound s'.
Proof.
  intros HW [H1 H2 H3]. destruct (views_wiring _ _ HW) as (_ & V1 & _ & _ & _ & V5 & _ & V7 & _). split; unfold occ in *.
  - intros g k n i. rewrite V1, V7. eauto.
  - intros g k n. rewrite V1, V7. eauto.
  - intros c f p fl. rewrite V5, !V7. eauto.
Qed.
Lemma target_wiring s s' t : same_wiring s s' -> target_alive s t -> target_alive s' t.
Proof. intros HW. destruct (views_wiring _ _ HW) as (_ & _ & _ & _ & _ & _ & _ & V7 & _). destruct t; cbn; rewrite ?V7; auto. Qed.
Lemma target_of s g k t : sound s -> occ s g k t -> target_alive s t.
Proof. intros [H1 H2 H3] Ho. destruct t; cbn; eauto. Qed.

(** the only ways to fail *)
Definition harmless {A} (r : res A) : Prop := match r with Ok _ => True | Err e => e = Deadlock \/ e = OutOfFuel end.
Lemma harmless_bind {A B} (r : res A) (k : A -> res B) : harmless r -> (forall a, r = Ok a -> harmless (k a)) -> harmless (bind r k).
Proof. destruct r; cbn; auto. Qed.

Theorem deliver_safe fuel : forall s L t m, sound s -> target_alive s t -> harmless (deliver fuel s L t m).
Proof.
  induction fuel as [|fuel IH]; intros s L t m HS Ht; [cbn; auto|].
  assert (Hcall : forall l s L m, sound s -> (forall k t, In (k, t) l -> target_alive s t) -> harmless (call_all (deliver fuel) s L l m)).
  { induction l as [|[k0 t0] l IHl]; intros s' L' m' HS' Hl; cbn [call_all]; [cbn; auto|].
    apply harmless_bind; [apply IH; [auto|eapply Hl; cbn; eauto]|]. intros [s1 tr1] E1. apply deliver_sound in E1. apply (proj1 flow_wiring) in E1.
    apply harmless_bind; [|intros [s2 tr2] _; cbn; auto]. apply IHl; [eapply sound_wiring; eauto|]. intros k t' Hin. eapply target_wiring; eauto. eapply Hl. cbn. eauto. }
  assert (Hemit : forall s L n m, sound s -> aliveof s n = true -> harmless (emit (deliver fuel) s L n m)).
  { intros s' L' n m' HS' Ha. unfold emit. destruct (existsb (Nat.eqb n) L'); [cbn; auto|]. destruct (live_of _ _ Ha) as (x & Hx). rewrite Hx. cbn [bind].
    apply harmless_bind; [|intros [s1 tr1] _; cbn; auto]. apply Hcall; auto. intros k t' Hin. destruct (live_view _ _ _ Hx) as (_ & _ & _ & _ & _ & _ & _ & Vc).
    apply (target_of _ n k); auto. unfold occ. now rewrite Vc. }
  assert (Hall : forall ms s L n, sound s -> aliveof s n = true -> harmless (emit_all (deliver fuel) s L n ms)).
  { induction ms as [|m0 ms IHm]; intros s' L' n HS' Ha; cbn [emit_all]; [cbn; auto|].
    apply harmless_bind; [apply Hemit; auto|]. intros [s1 tr1] E1. apply (emit_sound (deliver fuel) (deliver_sound fuel)) in E1.
    apply (proj1 (proj2 flow_wiring)) in E1. apply harmless_bind; [|intros [s2 tr2] _; cbn; auto].
    apply IHm; [eapply sound_wiring; eauto|]. destruct (views_wiring _ _ E1) as (_ & _ & _ & _ & _ & _ & _ & V7 & _). now rewrite V7. }
  destruct t as [u|n i|n]; cbn [deliver]; [cbn; auto| |].
  - cbn in Ht. destruct (live_of _ _ Ht) as (x & Hx). rewrite Hx. cbn [bind].
    assert (Hm : harmless (let '(y, outs) := behave (cls x) (st x) i m in
        do '(s', tr) <- emit_all (deliver fuel) (upd n (set_st x y) s) L n outs; Ok (s', Input n i m :: tr))).
    { destruct (behave (cls x) (st x) i m) as [y outs]. apply harmless_bind; [|intros [s1 tr1] _; cbn; auto].
      assert (HW : same_wiring s (upd n (set_st x y) s)) by (apply set_st_wire; apply live_nth in Hx; tauto).
      apply Hall; [eapply sound_wiring; eauto|]. destruct (views_wiring _ _ HW) as (_ & _ & _ & _ & _ & _ & _ & V7 & _). now rewrite V7. }
    destruct (cls x) eqn:Ec; try exact Hm. destruct (filters x) as [|[f q] fl] eqn:Ef; [cbn; auto|].
    apply harmless_bind; [|intros [s1 tr1] _; cbn; auto]. apply IH; auto. cbn.
    destruct (live_view _ _ _ Hx) as (_ & _ & _ & _ & _ & Vf & _). apply (so_first _ HS n f q fl); auto. congruence.
  - cbn in Ht. destruct (live_of _ _ Ht) as (x & Hx). rewrite Hx. cbn [bind]. apply Hemit; auto.
Qed.

(** *** when the network is sound *)
(** a destroyed filter detached itself *)
Definition detached_all (h : list op) (s : state) : Prop :=
  forall ha n hb, h = ha ++ Destroy n :: hb ->
    never (joins n) h /\ exists c, clsof s n = Some c /\ detaches c = true /\ (replaces c = true \/ times (connects n) ha <= 1).

Lemma run_cls fuel h o (s s' : state) rs r tr n c : run fuel [] h = Ok (s, rs) -> step fuel s o = Ok (s', r, tr) -> n < length s -> clsof s' n = Some c -> clsof s n = Some c.
Proof. intros H1 H2 Hn Hc. pose proof (step_stepped _ _ _ _ _ _ _ (run_inv _ _ _ _ H1) H2) as HS. now rewrite (sp_cls _ _ _ _ HS) in Hc. Qed.

Theorem clean_sound fuel h : forall (s : state) rs, run fuel [] h = Ok (s, rs) -> detached_all h s ->
  (forall n, n < length s -> aliveof s n = false -> ~ never (destroys n) h) /\
  (forall n g k i, aliveof s n = false -> ~ occ s g k (ToInput n i)).
Proof.
  induction h as [|o h IH] using rev_ind; intros s rs H HC.
  - cbn in H. injection H as <- <-. split; [cbn; intros; lia|]. intros n g k i _ Ho. unfold occ, cbsof in Ho. now destruct g.
  - apply run_snoc in H as (s1 & rs1 & r & tr & H1 & H2 & _ & _). pose proof (run_inv _ _ _ _ H1) as HI. pose proof (run_chains _ _ _ _ H1) as HCh.
    pose proof (step_stepped _ _ _ _ _ _ _ HI H2) as HS.
    assert (HC1 : detached_all h s1).
    { intros ha n hb E. destruct (HC ha n (hb ++ [o])) as (A & c & B & C); [rewrite E, <- app_assoc; reflexivity|].
      split; [apply never_app in A; tauto|]. exists c. split; auto. eapply run_cls; eauto.
      rewrite E in H1. apply run_app in H1 as (sx & rx & ry & X1 & X2 & _). cbn [run] in X2. destruct (step fuel sx (Destroy n)) as [[[sy ry'] ty]|] eqn:Es; [|discriminate].
      cbn [bind] in X2. destruct (run fuel sy hb) as [[sz rz]|] eqn:Ez; [|discriminate]. injection X2 as -> _.
      destruct (step_users fuel sx sy _ _ _ n Es) as (_ & _ & L); [cbn; now rewrite Nat.eqb_refl|].
      assert (X3 : run fuel sx (Destroy n :: hb) = Ok (s1, (ry', ty) :: rz)) by (cbn [run]; rewrite Es; cbn [bind]; rewrite Ez; reflexivity).
      destruct (run_len _ _ _ _ _ _ _ _ X1 eq_refl X3) as [L' _]. lia. }
    destruct (IH _ _ H1 HC1) as [D1 D2]. clear IH.
    assert (Hdes : forall n, n < length s -> aliveof s n = false -> aliveof s1 n = true -> destroys n o = true).
    { intros n Hn Ha Ha1. rewrite (sp_alive _ _ _ _ HS) in Ha by auto. apply negb_false_iff, orb_true_iff in Ha as [Ha|Ha]; auto.
      exfalso. apply existsb_exists in Ha as (c & _ & Hc). apply andb_true_iff in Hc as [Hc1 Hc2]. destruct o; cbn in Hc1; try discriminate.
      apply Nat.eqb_eq in Hc1. subst n0. apply existsb_exists in Hc2 as (q & Hq & _). apply in_map_iff in Hq as ([f q'] & _ & Hq).
      destruct (HC h c []) as (_ & c0 & E1 & E2 & _); [reflexivity|]. destruct (ch_node _ _ HCh _ _ _ Hq) as (E3 & _).
      eapply run_cls in E1; eauto; [|eapply clsof_lt; eauto]. rewrite E3 in E1. injection E1 as <-. discriminate. }
    split.
    + intros n Hn Ha Hnev. apply never_snoc in Hnev as [N1 N2].
      destruct (Nat.lt_ge_cases n (length s1)) as [L|L]; [|rewrite (sp_new_alive _ _ _ _ HS) in Ha by auto; discriminate].
      destruct (aliveof s1 n) eqn:Ha1; [|eapply D1; eauto]. rewrite (Hdes n Hn Ha Ha1) in N2. discriminate.
    + intros n g k i Ha Ho. destruct (i_held _ _ (sp_inv _ _ _ _ HS) _ _ _ _ Ho) as (c & Ec & _). pose proof (clsof_lt _ _ _ Ec) as Hn.
      destruct (Nat.lt_ge_cases n (length s1)) as [L|L]; [|rewrite (sp_new_alive _ _ _ _ HS) in Ha by auto; discriminate].
      destruct (aliveof s1 n) eqn:Ha1.
      * pose proof (Hdes n Hn Ha Ha1) as Hd. destruct o; cbn in Hd; try discriminate. apply Nat.eqb_eq in Hd. subst n0.
        destruct (HC h n []) as (_ & c0 & E1 & E2 & E3); [reflexivity|]. rewrite Ec in E1. injection E1 as <-.
        refine (sp_gone _ _ _ _ HS n c _ _ E2 E3 g k i Ho); [cbn; apply Nat.eqb_refl|eapply run_cls; eauto].
      * assert (Hc : connects n o = false). { destruct (connects n o) eqn:E; auto. destruct (step_users _ _ _ _ _ _ n H2) as (_ & D & _); [now rewrite E|congruence]. }
        eapply D2; eauto. eapply (sp_new_in _ _ _ _ HS); eauto.
Qed.

Theorem clean_network fuel h (s : state) rs : run fuel [] h = Ok (s, rs) -> detached_all h s -> sound s.
Proof.
  intros H HC. destruct (clean_sound _ _ _ _ H HC) as [D1 D2]. pose proof (run_inv _ _ _ _ H) as HI. pose proof (run_chains _ _ _ _ H) as HCh.
  assert (Hjoined : forall c f p, In (f, p) (filtersof s c) -> aliveof s f = true).
  { intros c f p Hin. destruct (aliveof s f) eqn:E; auto. exfalso. destruct (ch_node _ _ HCh _ _ _ Hin) as (_ & _ & _ & L & _).
    apply (D1 f L E). intros o Ho. destruct (destroys f o) eqn:Ed; auto. exfalso. destruct o; try discriminate. cbn in Ed. apply Nat.eqb_eq in Ed. subst n.
    apply in_split in Ho as (ha & hb & Eh). destruct (HC ha f hb Eh) as (Hj & _). pose proof (ch_joins _ _ _ _ _ HCh Hin) as J. apply times_never in Hj. lia. }
  split.
  - intros g k n i Ho. destruct (aliveof s n) eqn:E; auto. exfalso. eapply D2; eauto.
  - intros g k n Ho. destruct (i_out _ _ HI _ _ _ Ho) as (Ec & _). destruct (aliveof s n) eqn:E; auto. exfalso.
    apply (D1 n (clsof_lt _ _ _ Ec) E). intros o Hin. destruct (destroys n o) eqn:Ed; auto. exfalso. destruct o; try discriminate. cbn in Ed. apply Nat.eqb_eq in Ed. subst n0.
    apply in_split in Hin as (ha & hb & Eh). destruct (HC ha n hb Eh) as (_ & c & E1 & E2 & _). rewrite Ec in E1. injection E1 as <-. discriminate.
  - intros c f p fl _ Ef. eapply Hjoined. rewrite Ef. cbn. eauto.
Qed.

(** ** acyclic networks: every message is processed completely *)
Definition rank_of (rin rout : nat -> nat) (t : target) : nat := match t with ToUser _ => 0 | ToInput n _ => rin n | ToOutput n => rout n end.
Record ranked (rin rout : nat -> nat) (s : state) : Prop := mkRanked {
  ra_self : forall n, clsof s n <> Some Chain -> aliveof s n = true -> rout n < rin n;
  ra_edge : forall g k t, occ s g k t -> match t with ToUser _ => True | _ => rank_of rin rout t < rout g end;
  ra_first : forall c f p fl, aliveof s c = true -> filtersof s c = (f, p) :: fl -> rin f < rin c
}.
Lemma ranked_wiring rin rout s s' : same_wiring s s' -> ranked rin rout s -> ranked rin rout s'.
Proof.
  intros HW [H1 H2 H3]. destruct (views_wiring _ _ HW) as (_ & V1 & _ & _ & _ & V5 & V6 & V7 & _). split; unfold occ in *.
  - intros n. rewrite V6, V7. apply H1.
  - intros g k t. rewrite V1. apply H2.
  - intros c f p fl. rewrite V5, V7. eauto.
Qed.
Definition succeeds {A} (r : res A) : Prop := match r with Ok _ => True | Err _ => False end.
Lemma succeeds_bind {A B} (r : res A) (k : A -> res B) : succeeds r -> (forall a, r = Ok a -> succeeds (k a)) -> succeeds (bind r k).
Proof. destruct r; cbn; auto. Qed.

(** the mutexes held are those of filters upstream *)
Definition below rin rout (t : target) (r : nat) : Prop := match t with ToUser _ => True | _ => rank_of rin rout t < r end.
Definition need rin rout (t : target) : nat := match t with ToUser _ => 0 | _ => Datatypes.S (rank_of rin rout t) end.
Theorem deliver_total rin rout fuel : forall s L t m, sound s -> ranked rin rout s -> target_alive s t ->
  need rin rout t < fuel -> (forall n, In n L -> below rin rout t (rout n)) -> succeeds (deliver fuel s L t m).
Proof.
  induction fuel as [|fuel IH]; intros s L t m HS HR Ht Hf HL; [lia|].
  assert (Hcall : forall l s L m r, sound s -> ranked rin rout s -> r < fuel ->
     (forall k t, In (k, t) l -> target_alive s t /\ below rin rout t r) ->
     (forall n, In n L -> r <= rout n) -> succeeds (call_all (deliver fuel) s L l m)).
  { induction l as [|[k0 t0] l IHl]; intros s' L' m' r' HS' HR' Hr Hl HL'; cbn [call_all]; [cbn; auto|].
    apply succeeds_bind.
    - destruct (Hl k0 t0) as (A1 & A2); [cbn; auto|]. apply IH; auto.
      + destruct t0; cbn in *; lia.
      + intros n Hn. specialize (HL' n Hn). destruct t0; cbn in *; auto; lia.
    - intros [s1 tr1] E1. apply deliver_sound in E1. apply (proj1 flow_wiring) in E1.
      apply succeeds_bind; [|intros [s2 tr2] _; cbn; auto]. apply (IHl s1 L' m' r'); auto.
      + eapply sound_wiring; eauto.
      + eapply ranked_wiring; eauto.
      + intros k t' Hin. destruct (Hl k t') as (A1 & A2); [cbn; auto|]. split; auto. eapply target_wiring; eauto. }
  assert (Hemit : forall s L n m, sound s -> ranked rin rout s -> aliveof s n = true -> rout n < fuel -> (forall n', In n' L -> rout n < rout n') ->
     succeeds (emit (deliver fuel) s L n m)).
  { intros s' L' n m' HS' HR' Ha Hr HL'. unfold emit. destruct (existsb (Nat.eqb n) L') eqn:E.
    { apply existsb_exists in E as (n' & Hn' & E). apply Nat.eqb_eq in E. subst n'. specialize (HL' n Hn'). lia. }
    destruct (live_of _ _ Ha) as (x & Hx). rewrite Hx. cbn [bind]. destruct (live_view _ _ _ Hx) as (_ & _ & _ & _ & _ & _ & _ & Vc).
    apply succeeds_bind; [|intros [s1 tr1] _; cbn; auto]. apply (Hcall _ _ _ _ (rout n)); auto.
    - intros k t' Hin. assert (Ho : occ s' n k t') by (unfold occ; now rewrite Vc). split; [eapply target_of; eauto|].
      pose proof (ra_edge _ _ _ HR' _ _ _ Ho). destruct t'; auto.
    - intros n' [->|Hn']; [lia|]. specialize (HL' n' Hn'). lia. }
  assert (Hall : forall ms s L n, sound s -> ranked rin rout s -> aliveof s n = true -> rout n < fuel -> (forall n', In n' L -> rout n < rout n') ->
     succeeds (emit_all (deliver fuel) s L n ms)).
  { induction ms as [|m0 ms IHm]; intros s' L' n HS' HR' Ha Hr HL'; cbn [emit_all]; [cbn; auto|].
    apply succeeds_bind; [apply Hemit; auto|]. intros [s1 tr1] E1. apply (emit_sound (deliver fuel) (deliver_sound fuel)) in E1.
    apply (proj1 (proj2 flow_wiring)) in E1. apply succeeds_bind; [|intros [s2 tr2] _; cbn; auto].
    apply IHm; auto; [eapply sound_wiring; eauto|eapply ranked_wiring; eauto|]. destruct (views_wiring _ _ E1) as (_ & _ & _ & _ & _ & _ & _ & V7 & _). now rewrite V7. }
  destruct t as [u|n i|n]; cbn [deliver]; [cbn; auto| |].
  - cbn in Ht, Hf, HL. destruct (live_of _ _ Ht) as (x & Hx). rewrite Hx. cbn [bind]. destruct (live_view _ _ _ Hx) as (_ & Vcl & _ & _ & _ & Vf & _).
    assert (Hm : cls x <> Chain -> succeeds (let '(y, outs) := behave (cls x) (st x) i m in
        do '(s', tr) <- emit_all (deliver fuel) (upd n (set_st x y) s) L n outs; Ok (s', Input n i m :: tr))).
    { intros Hne. destruct (behave (cls x) (st x) i m) as [y outs]. apply succeeds_bind; [|intros [s1 tr1] _; cbn; auto].
      assert (HW : same_wiring s (upd n (set_st x y) s)) by (apply set_st_wire; apply live_nth in Hx; tauto).
      assert (Hself : rout n < rin n) by (apply (ra_self _ _ _ HR); auto; congruence).
      apply Hall; [eapply sound_wiring; eauto|eapply ranked_wiring; eauto| |lia|].
      - destruct (views_wiring _ _ HW) as (_ & _ & _ & _ & _ & _ & _ & V7 & _). now rewrite V7.
      - intros n' Hn'. specialize (HL n' Hn'). lia. }
    destruct (cls x) eqn:Ec; try (apply Hm; discriminate). destruct (filters x) as [|[f q] fl] eqn:Ef; [cbn; auto|].
    assert (Hfi : filtersof s n = (f, q) :: fl) by congruence. pose proof (ra_first _ _ _ HR n f q fl Ht Hfi) as Hr.
    apply succeeds_bind; [|intros [s1 tr1] _; cbn; auto]. apply IH; auto.
    + cbn. apply (so_first _ HS n f q fl); auto.
    + cbn. lia.
    + intros n' Hn'. specialize (HL n' Hn'). cbn. lia.
  - cbn in Ht, Hf, HL. destruct (live_of _ _ Ht) as (x & Hx). rewrite Hx. cbn [bind]. apply Hemit; auto; lia.
Qed.
End Life.
