(** The invariant of chains, and the streams of a program. *)
From Coq Require Import List Arith Lia Bool.
From Verif Require Import Base Net_Model Net_Spec Net_Flow Net_Wiring Net_Proofs.
Import ListNotations.

Section ChainProofs.
Context {S M U : Type}.
Notation target := (target U).
Notation node := (node S M U).
Notation state := (state S M U).
Notation obs := (obs M U).
Notation op := (op S M U).
Notation class := (class S M).

(** operations name filters of the user *)
Lemma step_users fuel (s s' : state) o r tr n : step fuel s o = Ok (s', r, tr) ->
  connects n o || destroys n o || extends_chain n o || feeds n o || drives n o = true ->
  internalof s n = false /\ aliveof s n = true /\ n < length s.
Proof.
  intros H Ho.
  assert (Hgo : forall x, user s n = Ok x -> internalof s n = false /\ aliveof s n = true /\ n < length s).
  { intros x Hx. destruct (user_view _ _ _ Hx) as (_ & _ & _ & A & B & C). auto. }
  destruct o as [c s0|n' fs|c f s0|c i|n' u|n' k|n' i m|n' m|n']; cbn [connects destroys extends_chain feeds drives orb] in Ho;
    rewrite ?orb_false_r in Ho; try discriminate; cbn [step] in H.
  - apply Nat.eqb_eq in Ho. subst. destruct (user s n) eqn:Hu; [eauto|discriminate].
  - destruct (user s c) eqn:Huc; [|discriminate]. cbn [bind] in H. destruct (user s f) eqn:Huf; [|discriminate].
    apply orb_true_iff in Ho as [Ho|Ho]; apply Nat.eqb_eq in Ho; subst; eauto.
  - apply Nat.eqb_eq in Ho. subst. destruct (user s n) eqn:Hu; [eauto|discriminate].
  - apply Nat.eqb_eq in Ho. subst. destruct (user s n) eqn:Hu; [eauto|discriminate].
  - apply Nat.eqb_eq in Ho. subst. destruct (user s n) eqn:Hu; [eauto|discriminate].
Qed.

Lemma nth_error_Some' {A} (l : list A) n x : nth_error l n = Some x -> n < length l.
Proof. intros H. apply nth_error_Some. congruence. Qed.

Record Ch (h : list op) (s : state) : Prop := mkCh {
  ch_hist : forall c, map fst (filtersof s c) = added c h;
  ch_node : forall c f p, In (f, p) (filtersof s c) ->
    clsof s c = Some Chain /\ internalof s c = false /\ internalof s f = false /\ f < length s /\
    clsof s p = Some PassThrough /\ internalof s p = true /\ aliveof s p = aliveof s c;
  ch_inj : forall c c' j j' f f' p, nth_error (filtersof s c) j = Some (f, p) -> nth_error (filtersof s c') j' = Some (f', p) -> c = c' /\ j = j';
  ch_int : forall p, internalof s p = true -> exists c f, In (f, p) (filtersof s c);
  ch_pass : forall c f p, In (f, p) (filtersof s c) -> aliveof s c = true -> aliveof s f = true -> exists k, occ s f k (ToInput p 0);
  ch_link : forall c j f p f' p', nth_error (filtersof s c) j = Some (f, p) -> nth_error (filtersof s c) (Datatypes.S j) = Some (f', p') ->
    aliveof s c = true -> aliveof s f' = true -> clsof s f' <> Some Source -> times (connects f') h <= 1 ->
    exists k, occ s p k (ToInput f' 0);
  ch_last : forall c f p fl, rev (filtersof s c) = (f, p) :: fl -> aliveof s c = true -> exists k, occ s p k (ToOutput c);
  ch_empty : forall c g k, filtersof s c = [] -> ~ occ s g k (ToOutput c);
  ch_head : forall c f p g k i, nth_error (filtersof s c) 0 = Some (f, p) -> times (connects f) h <= 1 -> ~ occ s g k (ToInput f i);
  ch_slot : forall g k n i, occ s g k (ToInput n i) -> 1 <= times (joins n) h -> times (connects n) h <= 1 -> i = 0
}.

Lemma added_snoc c (h : list op) o : added c (h ++ [o]) = added c h ++ match o with AddFilter c' f _ => if Nat.eqb c' c then [f] else [] | _ => [] end.
Proof. unfold added. rewrite flat_map_app. cbn. now rewrite app_nil_r. Qed.
Lemma joins_connects n (o : op) : joins n o = true -> connects n o = true.
Proof. destruct o; cbn; auto; discriminate. Qed.
Lemma joins_le n (h : list op) : times (joins n) h <= times (connects n) h.
Proof.
  unfold times. induction h as [|o h IH]; cbn; auto. destruct (joins n o) eqn:E; [rewrite (joins_connects _ _ E); cbn; lia|].
  destruct (connects n o); cbn; lia.
Qed.
Lemma added_joins c f (h : list op) : In f (added c h) -> 1 <= times (joins f) h.
Proof.
  unfold added, times. intros H. apply in_flat_map in H as (o & Ho & Hf).
  assert (In o (filter (joins f) h)).
  { apply filter_In. split; auto. destruct o; cbn in *; try contradiction. destruct (Nat.eqb c0 c); [|contradiction].
    destruct Hf as [->|[]]. apply Nat.eqb_refl. }
  destruct (filter (joins f) h); [contradiction|cbn; lia].
Qed.
Lemma joins_added f (h : list op) : 1 <= times (joins f) h -> exists c, In f (added c h).
Proof.
  unfold times. intros H. destruct (filter (joins f) h) as [|o l] eqn:E; [cbn in H; lia|].
  assert (Hin : In o (filter (joins f) h)) by (rewrite E; cbn; auto). apply filter_In in Hin as [Ho Hj].
  destruct o; try discriminate. cbn in Hj. apply Nat.eqb_eq in Hj. subst. exists c. apply in_flat_map. eexists. split; [exact Ho|].
  cbn. rewrite Nat.eqb_refl. cbn. auto.
Qed.

Lemma ch_init : Ch [] ([] : state).
Proof.
  assert (Hn : forall n, nth_error ([] : state) n = None) by (intros [|n]; reflexivity).
  assert (Hf : forall n, filtersof ([] : state) n = []) by (intros n; unfold filtersof; now rewrite Hn).
  assert (Hc : forall n, cbsof ([] : state) n = []) by (intros n; unfold cbsof; now rewrite Hn).
  split.
  - intros c. now rewrite Hf.
  - intros c f p. rewrite Hf. intros [].
  - intros c c' j j' f f' p. rewrite Hf. destruct j; discriminate.
  - intros p. unfold internalof. rewrite Hn. discriminate.
  - intros c f p. rewrite Hf. intros [].
  - intros c j f p f' p'. rewrite Hf. destruct j; discriminate.
  - intros c f p fl. rewrite Hf. discriminate.
  - intros c g k _. unfold occ. rewrite Hc. auto.
  - intros c f p g k i. rewrite Hf. discriminate.
  - intros g k n i. unfold occ. rewrite Hc. intros [].
Qed.

Lemma ch_joined h (s : state) f : Ch h s -> 1 <= times (joins f) h -> exists c p, In (f, p) (filtersof s c).
Proof.
  intros HC H. apply joins_added in H as (c & Hc). rewrite <- (ch_hist _ _ HC) in Hc. apply in_map_iff in Hc as ([f' p] & E & Hin).
  cbn in E. subst. eauto.
Qed.
Lemma ch_joins h (s : state) c f p : Ch h s -> In (f, p) (filtersof s c) -> 1 <= times (joins f) h.
Proof. intros HC H. apply (added_joins c). rewrite <- (ch_hist _ _ HC). apply in_map_iff. exists (f, p). auto. Qed.

(** operations other than addFilter *)
Lemma ch_step_other fuel h (s s' : state) o r tr :
  Inv h s -> Ch h s -> step fuel s o = Ok (s', r, tr) -> (forall c f s0, o <> AddFilter c f s0) -> Ch (h ++ [o]) s'.
Proof.
  intros HI HC H Hno. pose proof (step_stepped _ _ _ _ _ _ _ HI H) as HS.
  pose proof (step_users fuel s s' o r tr) as HU. specialize (fun n => HU n H). clear H.
  assert (Hpu : forall n p, pushes n p o = []) by (intros; destruct o; auto; exfalso; eapply Hno; eauto).
  assert (Hj : forall n, joins n o = false) by (intros; destruct o; auto; exfalso; eapply Hno; eauto).
  assert (Hext : forall n, extends_chain n o = false) by (intros; destruct o; auto; exfalso; eapply Hno; eauto).
  assert (Hfil : forall n, filtersof s' n = filtersof s n) by (intros; rewrite (sp_filters _ _ _ _ HS), Hpu; apply app_nil_r).
  assert (Hlt : forall c f p, In (f, p) (filtersof s c) -> c < length s /\ f < length s /\ p < length s).
  { intros c f p Hin. destruct (ch_node _ _ HC _ _ _ Hin) as (N1 & N2 & N3 & N4 & N5 & N6 & N7). apply clsof_lt in N1, N5. auto. }
  assert (Hdes : forall p, internalof s p = true -> destroys p o = false).
  { intros p Hp. destruct (destroys p o) eqn:E; auto. destruct (HU p) as (A & _); [now rewrite E, !orb_true_r|congruence]. }
  assert (Hcon : forall p, internalof s p = true -> connects p o = false).
  { intros p Hp. destruct (connects p o) eqn:E; auto. destruct (HU p) as (A & _); [now rewrite E|congruence]. }
  assert (Hcon1 : forall n, 1 <= times (joins n) h -> times (connects n) (h ++ [o]) <= 1 -> connects n o = false /\ times (connects n) h <= 1).
  { intros n H1 H2. pose proof (joins_le n h). rewrite times_snoc in H2. destruct (connects n o); [lia|split; [auto|lia]]. }
  assert (Hsame : forall c f p, In (f, p) (filtersof s c) -> aliveof s' p = aliveof s' c).
  { intros c f p Hin. destruct (Hlt _ _ _ Hin) as (L1 & L2 & L3).
    destruct (ch_node _ _ HC _ _ _ Hin) as (N1 & N2 & N3 & N4 & N5 & N6 & N7).
    destruct (aliveof s c) eqn:Ac.
    - rewrite (sp_alive _ _ _ _ HS p N7), (sp_alive _ _ _ _ HS c Ac). rewrite (Hdes p N6). cbn [orb]. f_equal.
      assert (E1 : existsb (fun c0 => destroys c0 o && existsb (Nat.eqb c) (map snd (filtersof s c0))) (seq 0 (length s)) = false).
      { apply existsb_false. intros c0 _. destruct (existsb (Nat.eqb c) (map snd (filtersof s c0))) eqn:E; [|apply andb_false_r].
        exfalso. apply existsb_exists in E as (c1 & Hc1 & E). apply Nat.eqb_eq in E. subst c1. apply in_map_iff in Hc1 as ([f1 c1] & E & Hc1).
        cbn in E. subst c1. destruct (ch_node _ _ HC _ _ _ Hc1) as (_ & _ & _ & _ & _ & D & _). congruence. }
      rewrite E1, orb_false_r. apply eq_true_iff_eq. split.
      + intros E. apply existsb_exists in E as (c0 & _ & E). apply andb_true_iff in E as [E2 E3].
        apply existsb_exists in E3 as (p1 & Hp1 & E). apply Nat.eqb_eq in E. subst p1. apply in_map_iff in Hp1 as ([f1 p1] & E & Hp1).
        cbn in E. subst p1. apply In_nth_error in Hp1 as (j1 & Hj1). apply In_nth_error in Hin as (j & Hj0).
        destruct (ch_inj _ _ HC _ _ _ _ _ _ _ Hj0 Hj1) as [-> _]. exact E2.
      + intros E. apply existsb_exists. exists c. split; [apply in_seq; lia|]. rewrite E. cbn [andb]. apply existsb_exists. exists p.
        split; [|apply Nat.eqb_refl]. apply in_map_iff. exists (f, p). auto.
    - destruct (aliveof s' p) eqn:Ap; [apply (sp_dead _ _ _ _ HS) in Ap; auto; congruence|].
      destruct (aliveof s' c) eqn:Ac'; [apply (sp_dead _ _ _ _ HS) in Ac'; auto; congruence|reflexivity]. }
  assert (Hlive : forall c f p, In (f, p) (filtersof s c) -> aliveof s' c = true -> aliveof s c = true /\ aliveof s' p = true).
  { intros c f p Hin Ac. destruct (Hlt _ _ _ Hin) as (L1 & L2 & L3). split; [now apply (sp_dead _ _ _ _ HS)|]. now rewrite (Hsame c f p Hin). }
  split.
  - intros c. rewrite Hfil, added_snoc, (ch_hist _ _ HC). destruct o; try (now rewrite app_nil_r). exfalso; eapply Hno; eauto.
  - intros c f p Hin. rewrite Hfil in Hin. destruct (Hlt _ _ _ Hin) as (L1 & L2 & L3).
    destruct (ch_node _ _ HC _ _ _ Hin) as (N1 & N2 & N3 & N4 & N5 & N6 & N7).
    rewrite !(sp_cls _ _ _ _ HS), !(sp_int _ _ _ _ HS) by auto. do 3 (split; [auto|]).
    split; [pose proof (sp_len _ _ _ _ HS); lia|]. do 2 (split; [auto|]).
    now apply (Hsame c f p).
  - intros c c' j j' f f' p. rewrite !Hfil. apply (ch_inj _ _ HC).
  - intros p Hp. destruct (Nat.lt_ge_cases p (length s)) as [Hl|Hl].
    + rewrite (sp_int _ _ _ _ HS) in Hp by auto. destruct (ch_int _ _ HC p Hp) as (c & f & Hin). exists c, f. now rewrite Hfil.
    + destruct (sp_new_int _ _ _ _ HS p Hl Hp) as (_ & c & f & s0 & E). exfalso. eapply Hno; eauto.
  - intros c f p Hin Ac Af. rewrite Hfil in Hin. destruct (Hlt _ _ _ Hin) as (L1 & L2 & L3).
    destruct (ch_node _ _ HC _ _ _ Hin) as (N1 & N2 & N3 & N4 & N5 & N6 & N7).
    destruct (ch_pass _ _ HC _ _ _ Hin) as (k & Hk); [now apply (sp_dead _ _ _ _ HS)|now apply (sp_dead _ _ _ _ HS)|].
    exists k. apply (sp_keep_in _ _ _ _ HS); auto.
  - intros c j f p f' p' Hj1 Hj2 Ac Af Hs Ht. rewrite Hfil in Hj1, Hj2.
    pose proof (nth_error_In _ _ Hj1) as Hi1. pose proof (nth_error_In _ _ Hj2) as Hi2.
    destruct (Hlt _ _ _ Hi1) as (L1 & L2 & L3). destruct (Hlt _ _ _ Hi2) as (_ & L2' & _).
    destruct (Hcon1 f' (ch_joins _ _ _ _ _ HC Hi2) Ht) as [C1 C2].
    assert (Ac0 : aliveof s c = true) by (now apply (sp_dead _ _ _ _ HS)).
    assert (Af0 : aliveof s f' = true) by (now apply (sp_dead _ _ _ _ HS)).
    destruct (ch_link _ _ HC _ _ _ _ _ _ Hj1 Hj2 Ac0 Af0) as (k & Hk); auto.
    { now rewrite <- (sp_cls _ _ _ _ HS). }
    exists k. apply (sp_keep_in _ _ _ _ HS); auto.
    + destruct (destroys f' o) eqn:E; auto. rewrite (sp_alive _ _ _ _ HS f' Af0), E in Af. discriminate.
    + destruct (Hlive c f p Hi1 Ac) as [_ E]. exact E.
  - intros c f p fl Hrev Ac. rewrite Hfil in Hrev.
    assert (Hin : In (f, p) (filtersof s c)) by (apply in_rev; rewrite Hrev; cbn; auto).
    destruct (Hlt _ _ _ Hin) as (L1 & L2 & L3).
    destruct (ch_last _ _ HC _ _ _ _ Hrev) as (k & Hk); [now apply (sp_dead _ _ _ _ HS)|].
    exists k. apply (sp_keep_out _ _ _ _ HS); auto. destruct (Hlive c f p Hin Ac) as [_ E]. exact E.
  - intros c g k Hf Ho. rewrite Hfil in Hf. apply (sp_new_out _ _ _ _ HS) in Ho; auto. eapply (ch_empty _ _ HC); eauto.
  - intros c f p g k i Hj0 Ht Ho. rewrite Hfil in Hj0. pose proof (nth_error_In _ _ Hj0) as Hin. destruct (Hlt _ _ _ Hin) as (L1 & L2 & L3).
    destruct (Hcon1 f (ch_joins _ _ _ _ _ HC Hin) Ht) as [C1 C2]. apply (sp_new_in _ _ _ _ HS) in Ho; auto. eapply (ch_head _ _ HC); eauto.
  - intros g k n i Ho Hjn Ht. rewrite times_snoc, Hj, Nat.add_0_r in Hjn. destruct (Hcon1 n Hjn Ht) as [C1 C2].
    destruct (ch_joined _ _ _ HC Hjn) as (c & p & Hin). destruct (Hlt _ _ _ Hin) as (L1 & L2 & L3).
    apply (sp_new_in _ _ _ _ HS) in Ho; auto. eapply (ch_slot _ _ HC); eauto.
Qed.

(** addFilter *)
Lemma ch_step_add fuel h (s s' : state) c f s0 r tr :
  Inv h s -> Ch h s -> step fuel s (AddFilter c f s0) = Ok (s', r, tr) -> Ch (h ++ [AddFilter c f s0]) s'.
Proof.
  intros HI HC H. pose proof (step_stepped _ _ _ _ _ _ _ HI H) as HS.
  cbn [step] in H. destruct (user s c) as [xc|] eqn:Huc; [|discriminate]. cbn [bind] in H. destruct (user s f) as [xf|] eqn:Huf; [|discriminate]. cbn [bind] in H.
  destruct (add_filter s c f s0) as [[s1 i1]|] eqn:Ha; [|discriminate]. cbn [bind] in H. injection H as <- <- <-.
  destruct (add_filter_eff h s s1 c f s0 i1 xc xf HI Huc Huf Ha) as (J0 & J1 & J2 & J3 & J4 & J5 & J6 & J7 & J8 & J9 & J10 & J11 & J12).
  destruct (user_view _ _ _ Huc) as (_ & _ & Cc & Ac & Ic & Lc). destruct (user_view _ _ _ Huf) as (_ & _ & Cf & Af & If & Lf).
  set (o := AddFilter c f s0) in *. set (p := length s) in *.
  assert (Hp : forall m, m < p -> Nat.eqb m p = false) by (intros m Hm; apply Nat.eqb_neq; lia).
  assert (Hlt : forall c f p0, In (f, p0) (filtersof s c) -> c < p /\ f < p /\ p0 < p).
  { intros c1 f1 p1 Hin. destruct (ch_node _ _ HC _ _ _ Hin) as (N1 & N2 & N3 & N4 & N5 & N6 & N7). apply clsof_lt in N1, N5. auto. }
  assert (Hfil : forall n a q, In (a, q) (filtersof s1 n) <-> In (a, q) (filtersof s n) \/ (n = c /\ a = f /\ q = p)).
  { intros n a q. rewrite J7. destruct (Nat.eqb_spec n c) as [->|]; [rewrite in_app_iff; cbn|]; split.
    - intros [Hi|[E|[]]]; auto. injection E as <- <-. auto.
    - intros [Hi|(_ & -> & ->)]; auto.
    - auto.
    - intros [Hi|(E & _)]; auto. contradiction. }
  assert (Hnth : forall n j a q, nth_error (filtersof s1 n) j = Some (a, q) ->
     nth_error (filtersof s n) j = Some (a, q) \/ (n = c /\ j = length (filtersof s c) /\ a = f /\ q = p)).
  { intros n j a q. rewrite J7. destruct (Nat.eqb_spec n c) as [->|]; auto. destruct (Nat.lt_ge_cases j (length (filtersof s c))).
    - rewrite nth_error_app1 by auto. auto.
    - rewrite nth_error_app2 by auto. destruct (j - length (filtersof s c)) as [|d] eqn:E; cbn; [|destruct d; discriminate].
      intros X. injection X as <- <-. right. repeat split; auto. lia. }
  assert (Hconf : connects f o = true) by (cbn; apply Nat.eqb_refl).
  assert (Hcon1 : forall n, 1 <= times (joins n) h -> times (connects n) (h ++ [o]) <= 1 -> connects n o = false /\ times (connects n) h <= 1).
  { intros n H1 H2. pose proof (joins_le n h). rewrite times_snoc in H2. destruct (connects n o); [lia|split; [auto|lia]]. }
  assert (Hnone : times (connects f) (h ++ [o]) <= 1 -> forall g k i, ~ occ s g k (ToInput f i)).
  { intros Ht g k i Ho. destruct (i_held _ _ HI _ _ _ _ Ho) as (_ & _ & _ & _ & D). specialize (D If). rewrite times_snoc, Hconf in Ht. lia. }
  split.
  - intros n. rewrite J7, added_snoc. unfold o. rewrite (Nat.eqb_sym c n). destruct (Nat.eqb_spec n c) as [->|].
    + rewrite map_app, (ch_hist _ _ HC). reflexivity.
    + now rewrite (ch_hist _ _ HC), app_nil_r.
  - intros n a q Hin. apply Hfil in Hin as [Hin|(-> & -> & ->)].
    + destruct (Hlt _ _ _ Hin) as (L1 & L2 & L3). destruct (ch_node _ _ HC _ _ _ Hin) as (N1 & N2 & N3 & N4 & N5 & N6 & N7).
      rewrite !J4, !J5, !J6, !Hp by auto. repeat (split; [auto; lia|]). auto.
    + rewrite !J4, !J5, !J6, !(Hp c), !(Hp f), !Nat.eqb_refl by auto. rewrite Cc, J1, Ac. repeat (split; [auto; lia|]). auto.
  - intros n n' j j' a a' q H1 H2. apply Hnth in H1, H2.
    destruct H1 as [H1|(-> & -> & -> & ->)]; destruct H2 as [H2|(-> & -> & -> & E)].
    + eapply (ch_inj _ _ HC); eauto.
    + rewrite E in H1. apply nth_error_In in H1. destruct (Hlt _ _ _ H1). lia.
    + apply nth_error_In in H2. destruct (Hlt _ _ _ H2). lia.
    + auto.
  - intros q Hq. rewrite J6 in Hq. destruct (Nat.eqb_spec q p) as [E|].
    + exists c, f. apply Hfil. auto.
    + destruct (ch_int _ _ HC q Hq) as (n1 & a & Hin). exists n1, a. apply Hfil. auto.
  - intros n a q Hin An Aa. apply Hfil in Hin as [Hin|(-> & -> & ->)]; [|exact J9].
    destruct (Hlt _ _ _ Hin) as (L1 & L2 & L3). destruct (ch_node _ _ HC _ _ _ Hin) as (N1 & N2 & N3 & N4 & N5 & N6 & N7).
    rewrite J5, Hp in An, Aa by auto. destruct (ch_pass _ _ HC _ _ _ Hin An Aa) as (k & Hk). exists k.
    apply (sp_keep_in _ _ _ _ HS); auto.
    + cbn. apply Nat.eqb_neq. congruence.
    + rewrite J5, Hp by auto. exact Aa.
  - intros n j a q a' q' H1 H2 An Aa Hs Ht. apply Hnth in H1, H2.
    destruct H1 as [H1|(-> & -> & -> & ->)].
    + pose proof (nth_error_In _ _ H1) as Hin1. destruct (Hlt _ _ _ Hin1) as (L1 & L2 & L3). rewrite J5, Hp in An by auto.
      destruct H2 as [H2|(-> & Ej & -> & ->)].
      * pose proof (nth_error_In _ _ H2) as Hin2. destruct (Hlt _ _ _ Hin2) as (_ & L2' & _). rewrite J5, Hp in Aa by auto. rewrite J4, Hp in Hs by auto.
        destruct (Hcon1 a' (ch_joins _ _ _ _ _ HC Hin2) Ht) as [C1 C2].
        destruct (ch_link _ _ HC _ _ _ _ _ _ H1 H2 An Aa Hs C2) as (k & Hk). exists k. apply (sp_keep_in _ _ _ _ HS); auto.
        destruct (ch_node _ _ HC _ _ _ Hin1) as (_ & _ & _ & _ & _ & _ & N7). rewrite J5, Hp, N7 by auto. exact An.
      * assert (Hrev : exists fl, rev (filtersof s c) = (a, q) :: fl).
        { destruct (rev (filtersof s c)) as [|[b d] fl] eqn:E.
          - apply (f_equal (@length _)) in E. rewrite rev_length in E. cbn in E. lia.
          - exists fl. f_equal. assert (E2 : filtersof s c = rev fl ++ [(b, d)]) by (rewrite <- (rev_involutive (filtersof s c)), E; reflexivity).
            rewrite E2 in H1, Ej. rewrite app_length in Ej. cbn in Ej. rewrite nth_error_app2 in H1 by lia.
            replace (j - length (rev fl)) with 0 in H1 by lia. cbn in H1. congruence. }
        destruct Hrev as (fl & Hrev). destruct (J12 _ _ _ Hrev) as [_ D]. apply D. intros E. apply Hs. rewrite J4, Hp, Cf, E by auto. reflexivity.
    + exfalso. destruct H2 as [H2|(_ & Ej & _)]; [|lia]. apply nth_error_Some' in H2. lia.
  - intros n a q fl Hrev An. rewrite J7 in Hrev. destruct (Nat.eqb_spec n c) as [->|Hne].
    + rewrite rev_app_distr in Hrev. cbn in Hrev. injection Hrev as <- <- <-. exact J10.
    + assert (Hin : In (a, q) (filtersof s n)) by (apply in_rev; rewrite Hrev; cbn; auto).
      destruct (Hlt _ _ _ Hin) as (L1 & L2 & L3). rewrite J5, Hp in An by auto. destruct (ch_last _ _ HC _ _ _ _ Hrev An) as (k & Hk).
      exists k. apply (sp_keep_out _ _ _ _ HS); auto.
      * cbn. apply Nat.eqb_neq. congruence.
      * destruct (ch_node _ _ HC _ _ _ Hin) as (_ & _ & _ & _ & _ & _ & N7). rewrite J5, Hp, N7 by auto. exact An.
  - intros n g k Hf Ho. rewrite J7 in Hf. destruct (Nat.eqb_spec n c) as [->|Hne]; [destruct (filtersof s c); discriminate|].
    apply (sp_new_out _ _ _ _ HS) in Ho; [|cbn; apply Nat.eqb_neq; congruence]. eapply (ch_empty _ _ HC); eauto.
  - intros n a q g k i H1 Ht Ho. apply Hnth in H1 as [H1|(-> & E & -> & ->)].
    + pose proof (nth_error_In _ _ H1) as Hin. destruct (Hlt _ _ _ Hin) as (L1 & L2 & L3).
      destruct (Hcon1 a (ch_joins _ _ _ _ _ HC Hin) Ht) as [C1 C2]. apply (sp_new_in _ _ _ _ HS) in Ho; auto. eapply (ch_head _ _ HC); eauto.
    + assert (Hf0 : filtersof s c = []) by (destruct (filtersof s c); [auto|discriminate]).
      eapply Hnone; eauto.
  - intros g k n i Ho Hjn Ht. destruct (connects n o) eqn:E.
    + cbn in E. apply Nat.eqb_eq in E. subst n. destruct (rev (filtersof s c)) as [|[b d] fl] eqn:Er.
      * exfalso. assert (Hf0 : filtersof s c = []) by (rewrite <- (rev_involutive (filtersof s c)), Er; reflexivity). eapply Hnone; eauto.
      * destruct (J12 _ _ _ eq_refl) as [D _]. destruct (D _ _ _ Ho) as [[_ D1]|[D1 _]]; [exfalso; eapply Hnone; eauto|exact D1].
    + assert (Hjn0 : 1 <= times (joins n) h).
      { rewrite times_snoc in Hjn. destruct (joins n o) eqn:Ej; [apply joins_connects in Ej; congruence|lia]. }
      destruct (Hcon1 n Hjn0 Ht) as [C1 C2]. destruct (ch_joined _ _ _ HC Hjn0) as (c1 & p1 & Hin). destruct (Hlt _ _ _ Hin) as (L1 & L2 & L3).
      apply (sp_new_in _ _ _ _ HS) in Ho; auto. eapply (ch_slot _ _ HC); eauto.
Qed.

Theorem run_chains fuel h : forall (s : state) rs, run fuel [] h = Ok (s, rs) -> Ch h s.
Proof.
  induction h as [|o h IH] using rev_ind; intros s rs H.
  - cbn in H. injection H as <- <-. apply ch_init.
  - apply run_snoc in H as (s1 & rs1 & r & tr & H1 & H2 & _ & _). pose proof (run_inv _ _ _ _ H1) as HI. specialize (IH _ _ H1).
    destruct o; try (eapply ch_step_other; eauto; discriminate). eapply ch_step_add; eauto.
Qed.
End ChainProofs.
