(** Chains as compositions of streams. *)
From Coq Require Import List Arith Lia Bool.
From Verif Require Import Base Net_Model Net_Spec Net_Flow Net_Wiring Net_Proofs Net_Chain Net_Streams.
Import ListNotations.

Section Links.
Context {S M U : Type}.
Notation target := (target U).
Notation node := (node S M U).
Notation state := (state S M U).
Notation obs := (obs M U).
Notation op := (op S M U).
Notation class := (class S M).

Lemma never_destroyed fuel h n : forall (s : state) rs, run fuel [] h = Ok (s, rs) ->
  n < length s -> internalof s n = false -> never (destroys n) h -> aliveof s n = true.
Proof.
  induction h as [|o h IH] using rev_ind; intros s rs H Hn Hi Hd.
  - cbn in H. injection H as <- <-. cbn in Hn. lia.
  - apply run_snoc in H as (s1 & rs1 & r & tr & H1 & H2 & _ & _). apply never_snoc in Hd as [Hd Hd'].
    pose proof (run_inv _ _ _ _ H1) as HI. pose proof (run_chains _ _ _ _ H1) as HC. pose proof (step_stepped _ _ _ _ _ _ _ HI H2) as HS.
    destruct (Nat.lt_ge_cases n (length s1)) as [Hl|Hl]; [|now apply (sp_new_alive _ _ _ _ HS)].
    rewrite (sp_int _ _ _ _ HS) in Hi by auto. rewrite (sp_alive _ _ _ _ HS) by eauto. rewrite Hd'. cbn [orb]. apply negb_true_iff.
    apply existsb_false. intros c _. destruct (existsb (Nat.eqb n) (map snd (filtersof s1 c))) eqn:E; [|apply andb_false_r]. exfalso.
    apply existsb_exists in E as (p & Hp & E). apply Nat.eqb_eq in E. subst p. apply in_map_iff in Hp as ([f p] & E & Hp). cbn in E. subst p.
    destruct (ch_node _ _ HC _ _ _ Hp) as (_ & _ & _ & _ & _ & D & _). congruence.
Qed.

(** a filter joined once is at one place *)
Lemma added_length c (h : list op) : length (added c h) = times (extends_chain c) h.
Proof.
  unfold added, times. induction h as [|o h IH]; cbn; auto. rewrite app_length, IH. destruct o; cbn; auto. destruct (Nat.eqb c0 c); auto.
Qed.
Lemma added_unique f (h : list op) : times (joins f) h <= 1 -> forall c c' j j',
  nth_error (added c h) j = Some f -> nth_error (added c' h) j' = Some f -> c = c' /\ j = j'.
Proof.
  induction h as [|o h IH] using rev_ind; intros Ht c c' j j' Hj Hj'.
  - destruct j; discriminate.
  - rewrite times_snoc in Ht. rewrite added_snoc in Hj, Hj'. 
    assert (Hcase : forall c j, nth_error (added c h ++ match o with AddFilter c' f _ => if Nat.eqb c' c then [f] else [] | _ => [] end) j = Some f ->
       nth_error (added c h) j = Some f \/ joins f o = true /\ extends_chain c o = true /\ j = length (added c h)).
    { intros c0 j0 H. destruct (Nat.lt_ge_cases j0 (length (added c0 h))); [rewrite nth_error_app1 in H by auto; auto|]. right.
      rewrite nth_error_app2 in H by auto. destruct o as [| |c1 f1 s1| | | | | |]; try (destruct (j0 - length (added c0 h)); discriminate).
      cbn. destruct (Nat.eqb_spec c1 c0); [|destruct (j0 - length (added c0 h)); discriminate].
      destruct (j0 - length (added c0 h)) as [|d] eqn:E; cbn in H; [|destruct d; discriminate]. injection H as ->. rewrite Nat.eqb_refl. repeat split; auto. lia. }
    apply Hcase in Hj, Hj'. destruct Hj as [Hj|(J1 & J2 & J3)]; destruct Hj' as [Hj'|(J1' & J2' & J3')].
    + apply IH; auto. lia.
    + exfalso. pose proof (added_joins c f h (nth_error_In _ _ Hj)). rewrite J1' in Ht. lia.
    + exfalso. pose proof (added_joins c' f h (nth_error_In _ _ Hj')). rewrite J1 in Ht. lia.
    + destruct o; try discriminate. cbn in J2, J2'. apply Nat.eqb_eq in J2, J2'. subst. auto.
Qed.

(** only input 0 is used *)
Definition other_slot (n : nat) (t : target) : bool := match t with ToInput n' i => Nat.eqb n' n && negb (Nat.eqb i 0) | _ => false end.
Lemma slot0 n (tr : list obs) : acts (other_slot n) tr = [] -> received n tr = map (pair 0) (inputs n 0 tr).
Proof.
  induction tr as [|o tr IH]; auto. cbn [acts flat_map act received inputs]. intros H. apply app_eq_nil in H as [H1 H2].
  change (flat_map _ tr) with (received n tr) at 1. change (flat_map _ tr) with (inputs n 0 tr). rewrite (IH H2), map_app. f_equal.
  destruct o as [u m|n' i m|n' m]; auto. cbn in H1. destruct (Nat.eqb n' n); auto. destruct (Nat.eqb_spec i 0) as [->|]; [reflexivity|discriminate].
Qed.
Lemma transform_pass c (x : S) (l : list (nat * M)) : c = PassThrough \/ c = Cache -> transform (behave c) x l = (x, map snd l).
Proof. intros Hc. induction l as [|[i m] l IH]; auto. cbn. destruct Hc as [-> | ->]; cbn; now rewrite IH. Qed.

(** ** a chain along a program *)
Section OneChain.
Variables (fuel : nat) (c : nat) (h1 h2 : list op) (s1 s2 : state) (rs1 rs2 : list (result * list obs)).
Hypothesis R1 : run fuel [] h1 = Ok (s1, rs1).
Hypothesis R2 : run fuel s1 h2 = Ok (s2, rs2).
Hypothesis Hproper : chained_properly (h1 ++ h2).
Hypothesis Hchain : clsof s1 c = Some Chain.
Hypothesis Hint : internalof s1 c = false.
Hypothesis Hself : ~ In c (added c h1).
Hypothesis Hext : never (extends_chain c) h2.
Hypothesis Hdc : never (destroys c) (h1 ++ h2).
Hypothesis Hdf : forall f, In f (added c h1) -> never (destroys f) (h1 ++ h2).

Record mid (ha : list op) (sa : state) : Prop := mkMid {
  m_inv : Inv (h1 ++ ha) sa;
  m_ch : Ch (h1 ++ ha) sa;
  m_fil : filtersof sa c = filtersof s1 c;
  m_cls : clsof sa c = Some Chain;
  m_int : internalof sa c = false;
  m_alive : aliveof sa c = true;
  m_falive : forall f, In f (added c h1) -> aliveof sa f = true;
  m_once : forall f, 1 <= times (joins f) (h1 ++ ha) -> times (joins f) (h1 ++ ha) <= 1 /\ times (connects f) (h1 ++ ha) <= 1;
  m_old : forall n, n < length s1 -> clsof sa n = clsof s1 n /\ internalof sa n = internalof s1 n
}.

Lemma added_h2 ha : never (extends_chain c) ha -> added c (h1 ++ ha) = added c h1.
Proof.
  intros H. unfold added. rewrite flat_map_app.
  assert (E : flat_map (fun o : op => match o with AddFilter c' f _ => if Nat.eqb c' c then [f] else [] | _ => [] end) ha = []).
  { induction ha as [|o ha IH]; auto. cbn. rewrite IH by (intros x Hx; apply H; cbn; auto). specialize (H o (or_introl eq_refl)).
    destruct o; auto. cbn in H. now rewrite H. }
  rewrite E, app_nil_r. reflexivity.
Qed.

Lemma filters_kept ha : forall sa rsa, never (extends_chain c) ha -> run fuel s1 ha = Ok (sa, rsa) -> filtersof sa c = filtersof s1 c.
Proof.
  induction ha as [|o ha IH] using rev_ind; intros sa rsa Hn H.
  - cbn in H. now injection H as <- <-.
  - apply run_snoc in H as (sb & rsb & r & tr & Ha & Hs & _ & _). apply never_snoc in Hn as [Hn Hn'].
    pose proof (run_inv _ _ _ _ (run_cat _ _ _ _ _ _ _ _ R1 Ha)) as HI. pose proof (step_stepped _ _ _ _ _ _ _ HI Hs) as HS.
    rewrite (sp_filters _ _ _ _ HS), (IH _ _ Hn Ha). destruct o; cbn in *; try apply app_nil_r. rewrite Hn'. apply app_nil_r.
Qed.

Lemma mid_at ha hb sa rsa rsb : h2 = ha ++ hb -> run fuel [] (h1 ++ ha) = Ok (sa, rsa) -> run fuel s1 ha = Ok (sa, rsb) -> mid ha sa.
Proof.
  intros E Ha Hb. pose proof (run_inv _ _ _ _ Ha) as HI. pose proof (run_chains _ _ _ _ Ha) as HC.
  destruct (run_len _ _ _ _ _ _ _ _ R1 eq_refl Hb) as [L D].
  assert (Lc : c < length s1) by (eapply clsof_lt; eauto).
  assert (Hfil : filtersof sa c = filtersof s1 c).
  { eapply (filters_kept ha); eauto. rewrite E in Hext. apply never_app in Hext. tauto. }
  assert (Hnev : forall n, never (destroys n) (h1 ++ h2) -> never (destroys n) (h1 ++ ha)).
  { intros n Hn. rewrite E, app_assoc in Hn. apply never_app in Hn. tauto. }
  destruct (D c Lc) as (D1 & D2 & D3). split; auto.
  - congruence.
  - congruence.
  - apply (never_destroyed _ _ _ _ _ Ha); auto; [lia|congruence].
  - intros f Hf. apply (never_destroyed _ _ _ _ _ Ha); auto.
    + rewrite <- (ch_hist _ _ (run_chains _ _ _ _ R1)) in Hf. apply in_map_iff in Hf as ([f' p] & Ef & Hf). cbn in Ef. subst f'.
      destruct (ch_node _ _ (run_chains _ _ _ _ R1) _ _ _ Hf) as (_ & _ & _ & Lf & _). lia.
    + rewrite <- (ch_hist _ _ (run_chains _ _ _ _ R1)) in Hf. apply in_map_iff in Hf as ([f' p] & Ef & Hf). cbn in Ef. subst f'.
      rewrite <- Hfil in Hf. destruct (ch_node _ _ HC _ _ _ Hf) as (_ & _ & D4 & _). exact D4.
  - intros f Hf. assert (Hc : times (connects f) (h1 ++ h2) = 1).
    { apply Hproper. rewrite E, app_assoc, times_app. lia. }
    rewrite E, app_assoc, times_app in Hc. pose proof (joins_le f (h1 ++ ha)). lia.
  - intros n Hn. destruct (D n Hn) as (E1 & E2 & _). auto.
Qed.

(** the filters of the chain and their passthroughs, as of the beginning of [h2] *)
Lemma mid_nth ha sa j f p : mid ha sa -> nth_error (filtersof s1 c) j = Some (f, p) ->
  In (f, p) (filtersof sa c) /\ nth_error (added c (h1 ++ ha)) j = Some f /\ In f (added c h1) /\
  aliveof sa f = true /\ aliveof sa p = true /\ internalof sa p = true /\ internalof sa f = false /\ clsof sa p = Some PassThrough.
Proof.
  intros HM Hj. assert (Hin : In (f, p) (filtersof sa c)) by (rewrite (m_fil _ _ HM); eapply nth_error_In; eauto).
  destruct (ch_node _ _ (m_ch _ _ HM) _ _ _ Hin) as (N1 & N2 & N3 & N4 & N5 & N6 & N7).
  assert (Hf : In f (added c h1)).
  { rewrite <- (ch_hist _ _ (run_chains _ _ _ _ R1)). apply in_map_iff. exists (f, p). split; auto. eapply nth_error_In; eauto. }
  split; [auto|]. split.
  { rewrite <- (ch_hist _ _ (m_ch _ _ HM)), (m_fil _ _ HM). now rewrite nth_error_map, Hj. }
  split; [auto|]. split; [now apply (m_falive _ _ HM)|]. split; [|auto]. rewrite N7. apply (m_alive _ _ HM).
Qed.

(** where an operation names a filter of the user *)
Lemma named (s s' : state) o r tr n : step fuel s o = Ok (s', r, tr) -> internalof s n = true -> feeds n o = false /\ drives n o = false.
Proof.
  intros H Hi. destruct (feeds n o) eqn:E1; [|destruct (drives n o) eqn:E2; auto];
    (destruct (step_users fuel s s' o r tr n H) as (A & _); [rewrite ?E1, ?E2, ?orb_true_r; auto|congruence]).
Qed.
Lemma starts_input n i (o : op) : feeds n o = false -> starts (is_input n i) o = false.
Proof. destruct o; cbn; auto. intros ->. reflexivity. Qed.
Lemma starts_other n (o : op) : feeds n o = false -> starts (other_slot n) o = false.
Proof. destruct o; cbn; auto. intros ->. reflexivity. Qed.
Lemma starts_chain (s s' : state) o r tr : step fuel s o = Ok (s', r, tr) -> clsof s c = Some Chain -> starts (is_output c) o = false.
Proof.
  intros H Hc. destruct o; cbn; auto. destruct (Nat.eqb_spec n c) as [->|]; auto. exfalso. cbn [step] in H.
  destruct (user s c) as [x|] eqn:Hu; [|discriminate]. destruct (user_view _ _ _ Hu) as (_ & _ & Cx & _). rewrite Hc in Cx. injection Cx as Cx.
  cbn [bind] in H. rewrite <- Cx in H. cbn in H. discriminate.
Qed.

(** the passthrough behind a filter receives what the filter signals *)
Lemma link_pass ha o hb sa rsa rsb sb r tr j f p : h2 = ha ++ o :: hb -> run fuel [] (h1 ++ ha) = Ok (sa, rsa) -> run fuel s1 ha = Ok (sa, rsb) ->
  step fuel sa o = Ok (sb, r, tr) -> nth_error (filtersof s1 c) j = Some (f, p) -> inputs p 0 tr = outputs f tr.
Proof.
  intros E Ha Hb Hs Hj. pose proof (mid_at ha (o :: hb) sa rsa rsb E Ha Hb) as HM.
  destruct (mid_nth _ _ _ _ _ HM Hj) as (Hin & Hadd & Hf & Af & Ap & Ip & If & Cp).
  rewrite <- acts_inputs. apply (step_fed _ _ fuel sa sb o r); auto.
  - assert (Hone : forall g k, occ sa g k (ToInput p 0) -> insof sa p 0 = Some (g, k)).
    { intros g k Ho. destruct (i_held _ _ (m_inv _ _ HM) _ _ _ _ Ho) as (c' & D1 & _ & D3 & _). rewrite Cp in D1. injection D1 as <-. apply D3. auto. }
    destruct (ch_pass _ _ (m_ch _ _ HM) _ _ _ Hin (m_alive _ _ HM) Af) as (k0 & Hk0).
    apply (fed_intro (h1 ++ ha)); [apply (m_inv _ _ HM)| | | | |].
    + intros g k t Ho Hh. apply is_input_true in Hh. subst t. pose proof (Hone _ _ Ho). pose proof (Hone _ _ Hk0). congruence.
    + intros k k' t t' Ho Ho' Hh Hh'. apply is_input_true in Hh, Hh'. subst. pose proof (Hone _ _ Ho). pose proof (Hone _ _ Ho'). congruence.
    + intros _. exists k0, (ToInput p 0). split; auto. apply is_input_refl.
    + intros c' a q fl Ef. destruct (is_input p 0 (ToInput a 0 : target)) eqn:Hh; auto. exfalso. apply is_input_true in Hh. injection Hh as ->.
      assert (Hin' : In (p, q) (filtersof sa c')) by (rewrite Ef; cbn; auto).
      destruct (ch_node _ _ (m_ch _ _ HM) _ _ _ Hin') as (_ & _ & D & _). congruence.
    + intros m _ Hh. cbn in Hh. discriminate.
  - apply starts_input. eapply named; eauto.
Qed.

(** ... and repeats it *)
Lemma link_repeat ha o hb sa rsa rsb sb r tr j f p : h2 = ha ++ o :: hb -> run fuel [] (h1 ++ ha) = Ok (sa, rsa) -> run fuel s1 ha = Ok (sa, rsb) ->
  step fuel sa o = Ok (sb, r, tr) -> nth_error (filtersof s1 c) j = Some (f, p) -> outputs p tr = inputs p 0 tr.
Proof.
  intros E Ha Hb Hs Hj. pose proof (mid_at ha (o :: hb) sa rsa rsb E Ha Hb) as HM.
  destruct (mid_nth _ _ _ _ _ HM Hj) as (Hin & Hadd & Hf & Af & Ap & Ip & If & Cp). destruct (named _ _ _ _ _ _ Hs Ip) as [Nf Nd].
  assert (HC : comp PassThrough (state_of p sa) (received p tr) (outputs p tr) (state_of p sb)).
  { apply (step_comp p PassThrough fuel sa sb o r tr); auto; [discriminate|].
    intros g x k c' y Hg Hi Hc'. destruct (live_view _ _ _ Hg) as (_ & _ & _ & _ & _ & _ & _ & Vg). rewrite <- Vg in Hi.
    destruct (i_out _ _ (m_inv _ _ HM) _ _ _ Hi) as [D _]. destruct (live_view _ _ _ Hc') as (_ & Vc & _). congruence. }
  assert (Hslot : acts (other_slot p) tr = []).
  { apply (step_unfed (h1 ++ ha) (other_slot p) fuel sa sb o r tr); auto using starts_other; [apply (m_inv _ _ HM)| |].
    - intros g k t Ho. destruct t as [|n i|]; auto. cbn. destruct (Nat.eqb_spec n p) as [->|]; auto. cbn.
      destruct (i_held _ _ (m_inv _ _ HM) _ _ _ _ Ho) as (c' & D1 & D2 & _). rewrite Cp in D1. injection D1 as <-. cbn in D2.
      destruct i; [reflexivity|lia].
    - intros c' a q fl Ef. cbn. apply andb_false_r. }
  apply slot0 in Hslot. destruct (state_of p sa) as [x|], (state_of p sb) as [y|]; cbn in HC; try contradiction.
  rewrite transform_pass in HC by auto. injection HC as _ HC. rewrite <- HC, Hslot, map_map. cbn. now rewrite map_id.
Qed.

(** the next filter receives what the passthrough signals *)
Lemma link_next ha o hb sa rsa rsb sb r tr j f p f' p' : h2 = ha ++ o :: hb -> run fuel [] (h1 ++ ha) = Ok (sa, rsa) -> run fuel s1 ha = Ok (sa, rsb) ->
  step fuel sa o = Ok (sb, r, tr) -> nth_error (filtersof s1 c) j = Some (f, p) -> nth_error (filtersof s1 c) (Datatypes.S j) = Some (f', p') ->
  clsof s1 f' <> Some Source -> feeds f' o = false -> inputs f' 0 tr = outputs p tr.
Proof.
  intros E Ha Hb Hs Hj Hj' Hsrc Hfeed. pose proof (mid_at ha (o :: hb) sa rsa rsb E Ha Hb) as HM.
  destruct (mid_nth _ _ _ _ _ HM Hj) as (Hin & Hadd & Hf & Af & Ap & Ip & If & Cp).
  destruct (mid_nth _ _ _ _ _ HM Hj') as (Hin' & Hadd' & Hf' & Af' & Ap' & Ip' & If' & Cp').
  destruct (m_once _ _ HM f' (ch_joins _ _ _ _ _ (m_ch _ _ HM) Hin')) as [O1 O2].
  rewrite <- acts_inputs. apply (step_fed _ _ fuel sa sb o r); auto using starts_input.
  assert (Hone : forall g k, occ sa g k (ToInput f' 0) -> insof sa f' 0 = Some (g, k)).
  { intros g k Ho. destruct (i_held _ _ (m_inv _ _ HM) _ _ _ _ Ho) as (c' & _ & _ & D3 & _). apply D3. auto. }
  destruct (ch_link _ _ (m_ch _ _ HM) c j f p f' p') as (k0 & Hk0); auto.
  { now rewrite (m_fil _ _ HM). } { now rewrite (m_fil _ _ HM). } { apply (m_alive _ _ HM). }
  { destruct (m_old _ _ HM f') as [-> _]; auto. apply nth_error_In in Hj'. destruct (ch_node _ _ (run_chains _ _ _ _ R1) _ _ _ Hj') as (_ & _ & _ & L & _). exact L. }
  apply (fed_intro (h1 ++ ha)); [apply (m_inv _ _ HM)| | | | |].
  - intros g k t Ho Hh. apply is_input_true in Hh. subst t. pose proof (Hone _ _ Ho). pose proof (Hone _ _ Hk0). congruence.
  - intros k k' t t' Ho Ho' Hh Hh'. apply is_input_true in Hh, Hh'. subst. pose proof (Hone _ _ Ho). pose proof (Hone _ _ Ho'). congruence.
  - intros _. exists k0, (ToInput f' 0). split; auto. apply is_input_refl.
  - intros c' a q fl Ef. destruct (is_input f' 0 (ToInput a 0 : target)) eqn:Hh; auto. exfalso. apply is_input_true in Hh. injection Hh as ->.
    assert (H0 : nth_error (added c' (h1 ++ ha)) 0 = Some f') by (rewrite <- (ch_hist _ _ (m_ch _ _ HM)), Ef; reflexivity).
    destruct (added_unique f' _ O1 _ _ _ _ Hadd' H0) as [_ D]. discriminate.
  - intros m _ Hh. cbn in Hh. discriminate.
Qed.

(** the chain signals what the last passthrough signals *)
Lemma link_last ha o hb sa rsa rsb sb r tr f p fl : h2 = ha ++ o :: hb -> run fuel [] (h1 ++ ha) = Ok (sa, rsa) -> run fuel s1 ha = Ok (sa, rsb) ->
  step fuel sa o = Ok (sb, r, tr) -> rev (filtersof s1 c) = (f, p) :: fl -> outputs c tr = outputs p tr.
Proof.
  intros E Ha Hb Hs Hrev. pose proof (mid_at ha (o :: hb) sa rsa rsb E Ha Hb) as HM.
  assert (Hin0 : In (f, p) (filtersof s1 c)) by (apply in_rev; rewrite Hrev; cbn; auto). apply In_nth_error in Hin0 as (j & Hj).
  destruct (mid_nth _ _ _ _ _ HM Hj) as (Hin & Hadd & Hf & Af & Ap & Ip & If & Cp).
  rewrite <- (acts_outputs c). apply (step_fed _ _ fuel sa sb o r); auto; [|eapply starts_chain; eauto using m_cls].
  destruct (ch_last _ _ (m_ch _ _ HM) c f p fl) as (k0 & Hk0); [now rewrite (m_fil _ _ HM)|apply (m_alive _ _ HM)|].
  assert (Hone : forall g k, occ sa g k (ToOutput c) -> lastof sa c = Some (g, k)).
  { intros g k Ho. apply (i_out _ _ (m_inv _ _ HM) _ _ _ Ho). }
  apply (fed_intro (h1 ++ ha)); [apply (m_inv _ _ HM)| | | | |].
  - intros g k t Ho Hh. apply is_output_true in Hh. subst t. pose proof (Hone _ _ Ho). pose proof (Hone _ _ Hk0). congruence.
  - intros k k' t t' Ho Ho' Hh Hh'. apply is_output_true in Hh, Hh'. subst. pose proof (Hone _ _ Ho). pose proof (Hone _ _ Ho'). congruence.
  - intros _. exists k0, (ToOutput c). split; auto. cbn. apply Nat.eqb_refl.
  - intros c' a q fl' Ef. reflexivity.
  - intros m _ Hh. apply is_output_true in Hh. injection Hh as ->. split; [apply (m_cls _ _ HM)|]. intros Ecp. pose proof (m_int _ _ HM). congruence.
Qed.

(** the first filter receives what the chain receives *)
Lemma link_first ha o hb sa rsa rsb sb r tr f p : h2 = ha ++ o :: hb -> run fuel [] (h1 ++ ha) = Ok (sa, rsa) -> run fuel s1 ha = Ok (sa, rsb) ->
  step fuel sa o = Ok (sb, r, tr) -> nth_error (filtersof s1 c) 0 = Some (f, p) -> feeds f o = false -> inputs f 0 tr = received_msgs c tr.
Proof.
  intros E Ha Hb Hs Hj Hfeed. pose proof (mid_at ha (o :: hb) sa rsa rsb E Ha Hb) as HM.
  destruct (mid_nth _ _ _ _ _ HM Hj) as (Hin & Hadd & Hf & Af & Ap & Ip & If & Cp).
  destruct (m_once _ _ HM f (ch_joins _ _ _ _ _ (m_ch _ _ HM) Hin)) as [O1 O2].
  apply (step_heads c f fuel sa sb o r); auto using starts_input; [intros ->; contradiction|]. split.
  - intros g x Hl. destruct (live_view _ _ _ Hl) as (_ & _ & _ & _ & _ & _ & _ & Vc). rewrite <- Vc. apply count_zero.
    intros k t Hi. destruct (is_input f 0 t) eqn:Hh; auto. exfalso. apply is_input_true in Hh. subst t.
    eapply (ch_head _ _ (m_ch _ _ HM) c f p g k 0); eauto. now rewrite (m_fil _ _ HM).
  - intros c' x a q fl Hl _ Hfl. destruct (live_view _ _ _ Hl) as (_ & _ & _ & _ & _ & Vf & _). rewrite <- Vf in Hfl. split.
    + intros ->. assert (H0 : nth_error (added c' (h1 ++ ha)) 0 = Some f) by (rewrite <- (ch_hist _ _ (m_ch _ _ HM)), Hfl; reflexivity).
      destruct (added_unique f _ O1 _ _ _ _ Hadd H0). auto.
    + intros ->. rewrite (m_fil _ _ HM) in Hfl. rewrite Hfl in Hj. cbn in Hj. congruence.
  - intros x Hl. destruct (live_view _ _ _ Hl) as (_ & Vc & _ & _ & _ & Vf & _). rewrite (m_cls _ _ HM) in Vc. split; [congruence|].
    rewrite <- Vf, (m_fil _ _ HM). destruct (filtersof s1 c); discriminate.
Qed.

(** an empty chain signals nothing *)
Lemma link_empty ha o hb sa rsa rsb sb r tr : h2 = ha ++ o :: hb -> run fuel [] (h1 ++ ha) = Ok (sa, rsa) -> run fuel s1 ha = Ok (sa, rsb) ->
  step fuel sa o = Ok (sb, r, tr) -> filtersof s1 c = [] -> outputs c tr = [].
Proof.
  intros E Ha Hb Hs He. pose proof (mid_at ha (o :: hb) sa rsa rsb E Ha Hb) as HM.
  assert (Hfed : fed (is_output c) (length sa) sa -> outputs c tr = []).
  { intros HF. rewrite <- (acts_outputs c). rewrite (step_fed _ _ fuel sa sb o r tr Hs HF); [|eapply starts_chain; eauto using m_cls].
    eapply step_outputs_dead; eauto. destruct (aliveof sa (length sa)) eqn:El; auto. apply aliveof_lt in El. lia. }
  apply Hfed. assert (Hno : forall g k t, occ sa g k t -> is_output c t = true -> False).
  { intros g k t Ho Hh. apply is_output_true in Hh. subst t. eapply (ch_empty _ _ (m_ch _ _ HM)); eauto. now rewrite (m_fil _ _ HM). }
  apply (fed_intro (h1 ++ ha)); [apply (m_inv _ _ HM)| | | | |].
  - intros g k t Ho Hh. exfalso. eauto.
  - intros k k' t t' Ho _ Hh. exfalso. eauto.
  - intros Hl. apply aliveof_lt in Hl. lia.
  - intros c' a q fl' Ef. reflexivity.
  - intros m Hm Hh. apply is_output_true in Hh. injection Hh as ->. split; [apply (m_cls _ _ HM)|]. apply aliveof_lt in Hm. lia.
Qed.

(** *** over the whole program *)
Ltac whole A B L := apply (run_streams A B fuel h2 h1 [] s1 s2 rs1 rs2); auto using inputs_app, outputs_app, received_msgs_app;
  intros ha o hb sa rsa sb r tr E Ha Hb Hs; eapply L; eauto.

Theorem chain_first f : nth_error (added c h1) 0 = Some f -> never (feeds f) h2 -> inputs f 0 (trace rs2) = map snd (received c (trace rs2)).
Proof.
  intros Hf Hn. rewrite <- (ch_hist _ _ (run_chains _ _ _ _ R1)), nth_error_map in Hf.
  destruct (nth_error (filtersof s1 c) 0) as [[f' p]|] eqn:Hj; [|discriminate]. cbn in Hf. injection Hf as ->.
  change (map snd (received c (trace rs2))) with (received_msgs c (trace rs2)).
  whole (@inputs M U f 0) (@received_msgs M U c) link_first. apply Hn. rewrite E. apply in_or_app; cbn; auto.
Qed.
Theorem chain_next j f f' : nth_error (added c h1) j = Some f -> nth_error (added c h1) (Datatypes.S j) = Some f' ->
  clsof s1 f' <> Some Source -> never (feeds f') h2 -> inputs f' 0 (trace rs2) = outputs f (trace rs2).
Proof.
  intros Hf Hf' Hs Hn. rewrite <- (ch_hist _ _ (run_chains _ _ _ _ R1)), nth_error_map in Hf, Hf'.
  destruct (nth_error (filtersof s1 c) j) as [[f1 p]|] eqn:Hj; [|discriminate]. cbn in Hf. injection Hf as ->.
  destruct (nth_error (filtersof s1 c) (Datatypes.S j)) as [[f2 p']|] eqn:Hj'; [|discriminate]. cbn in Hf'. injection Hf' as ->.
  apply (run_streams (inputs f' 0) (outputs f) fuel h2 h1 [] s1 s2 rs1 rs2); auto using inputs_app, outputs_app.
  intros ha o hb sa rsa sb r tr E Ha Hb Hst.
  rewrite (link_next ha o hb sa rsa _ sb r tr j f p f' p' E Ha Hb Hst Hj Hj' Hs) by (apply Hn; rewrite E; apply in_or_app; cbn; auto).
  rewrite (link_repeat ha o hb sa rsa _ sb r tr j f p E Ha Hb Hst Hj). eapply link_pass; eauto.
Qed.
Theorem chain_last f fs : added c h1 = fs ++ [f] -> outputs c (trace rs2) = outputs f (trace rs2).
Proof.
  intros Hf. rewrite <- (ch_hist _ _ (run_chains _ _ _ _ R1)) in Hf.
  destruct (rev (filtersof s1 c)) as [|[f1 p] fl] eqn:Hrev.
  - apply (f_equal (@rev _)) in Hf. rewrite <- map_rev, Hrev, rev_app_distr in Hf. discriminate.
  - assert (f1 = f) as -> by (apply (f_equal (@rev _)) in Hf; rewrite <- map_rev, Hrev, rev_app_distr in Hf; cbn in Hf; congruence).
    assert (Hj : exists j, nth_error (filtersof s1 c) j = Some (f, p)) by (apply In_nth_error, in_rev; rewrite Hrev; cbn; auto). destruct Hj as (j & Hj).
    apply (run_streams (outputs c) (outputs f) fuel h2 h1 [] s1 s2 rs1 rs2); auto using outputs_app.
    intros ha o hb sa rsa sb r tr E Ha Hb Hst. rewrite (link_last ha o hb sa rsa _ sb r tr f p fl E Ha Hb Hst Hrev).
    rewrite (link_repeat ha o hb sa rsa _ sb r tr j f p E Ha Hb Hst Hj). eapply link_pass; eauto.
Qed.
Theorem chain_empty : added c h1 = [] -> outputs c (trace rs2) = [].
Proof.
  intros Hf. rewrite <- (ch_hist _ _ (run_chains _ _ _ _ R1)) in Hf. apply map_eq_nil in Hf.
  apply (run_streams (outputs c) (fun _ => []) fuel h2 h1 [] s1 s2 rs1 rs2); auto using outputs_app.
  intros ha o hb sa rsa sb r tr E Ha Hb Hst. eapply link_empty; eauto.
Qed.

(** what a filter of the chain computes *)
Lemma link_comp j f x : nth_error (added c h1) j = Some f -> nth_error s1 f = Some x -> cls x <> Chain ->
  never (feeds f) h2 -> never (drives f) h2 ->
  outputs f (trace rs2) = snd (transform (behave (cls x)) (st x) (map (pair 0) (inputs f 0 (trace rs2)))).
Proof.
  intros Hf Hx Hch Hfeed Hdr. rewrite <- (ch_hist _ _ (run_chains _ _ _ _ R1)), nth_error_map in Hf.
  destruct (nth_error (filtersof s1 c) j) as [[f1 p]|] eqn:Hj; [|discriminate]. cbn in Hf. injection Hf as ->.
  assert (Hcf : clsof s1 f = Some (cls x)) by (unfold clsof; now rewrite Hx).
  assert (Hgen : forall hb ha, h2 = ha ++ hb -> forall sa rsa, run fuel s1 ha = Ok (sa, rsa) ->
     comp (cls x) (state_of f s1) (map (pair 0) (inputs f 0 (trace rsa))) (outputs f (trace rsa)) (state_of f sa)).
  { intros hb ha. revert hb. induction ha as [|o ha IH] using rev_ind; intros hb E sa rsa Ha.
    - cbn in Ha. injection Ha as <- <-. cbn. apply comp_nil. unfold state_of. rewrite Hx. discriminate.
    - apply run_snoc in Ha as (sb & rsb & r & tr & Hb & Hs & -> & _). rewrite <- app_assoc in E. cbn in E.
      specialize (IH _ E _ _ Hb). pose proof (run_cat _ _ _ _ _ _ _ _ R1 Hb) as Hb'.
      pose proof (mid_at ha (o :: hb) sb _ _ E Hb' Hb) as HM. destruct (mid_nth _ _ _ _ _ HM Hj) as (Hin & Hadd & Hf & Af & Ap & Ip & If & Cp).
      assert (Hino : In o h2) by (rewrite E; apply in_or_app; cbn; auto).
      destruct (m_once _ _ HM f (ch_joins _ _ _ _ _ (m_ch _ _ HM) Hin)) as [O1 O2].
      assert (HC : comp (cls x) (state_of f sb) (received f tr) (outputs f tr) (state_of f sa)).
      { apply (step_comp f (cls x) fuel sb sa o r tr); auto.
        - intros g y k c' z Hg Hi Hc'. destruct (live_view _ _ _ Hg) as (_ & _ & _ & _ & _ & _ & _ & Vg). rewrite <- Vg in Hi.
          destruct (i_out _ _ (m_inv _ _ HM) _ _ _ Hi) as [D _]. destruct (live_view _ _ _ Hc') as (_ & Vc & _). congruence.
        - destruct (m_old _ _ HM f) as [D _]; [eapply clsof_lt; eauto|]. congruence. }
      assert (Hslot : acts (other_slot f) tr = []).
      { apply (step_unfed (h1 ++ ha) (other_slot f) fuel sb sa o r tr); auto using starts_other; [apply (m_inv _ _ HM)| |].
        - intros g k t Ho. destruct t as [|n i|]; auto. cbn. destruct (Nat.eqb_spec n f) as [->|]; auto. cbn.
          rewrite (ch_slot _ _ (m_ch _ _ HM) _ _ _ _ Ho); auto. eapply ch_joins; eauto using m_ch.
        - intros c' a q fl Ef. cbn. apply andb_false_r. }
      rewrite (slot0 _ _ Hslot) in HC. unfold trace. rewrite !flat_map_app. cbn [flat_map snd]. rewrite !app_nil_r, inputs_app, outputs_app, map_app.
      eapply comp_app; eauto. }
  specialize (Hgen [] h2 (eq_sym (app_nil_r h2)) _ _ R2). unfold state_of in Hgen. rewrite Hx in Hgen. cbn in Hgen.
  destruct (nth_error s2 f) as [y|]; cbn in Hgen; [|contradiction]. now rewrite Hgen.
Qed.

(** the whole chain *)
Definition behaves_as (f : nat) (b : S * (S -> nat -> M -> S * list M)) : Prop :=
  exists x, nth_error s1 f = Some x /\ cls x <> Chain /\ cls x <> Source /\ b = (st x, behave (cls x)).

Theorem chain_compose bs :
  Forall2 behaves_as (added c h1) bs ->
  added c h1 <> [] ->
  (forall f, In f (added c h1) -> never (feeds f) h2 /\ never (drives f) h2) ->
  outputs c (trace rs2) = compose bs (map snd (received c (trace rs2))).
Proof.
  intros Hbs Hne Hnev.
  assert (Hgen : forall fs' fs bs', added c h1 = fs ++ fs' -> fs' <> [] -> Forall2 behaves_as fs' bs' ->
     forall f0, nth_error fs' 0 = Some f0 -> outputs c (trace rs2) = compose bs' (inputs f0 0 (trace rs2))).
  { induction fs' as [|f fs' IH]; intros fs bs' E Hn HF f0 Hf0; [contradiction|]. injection Hf0 as <-.
    inversion HF as [|? [b0 b1] ? bs'' Hb HF']; subst. destruct Hb as (x & Hx & Hx1 & Hx2 & Eb). injection Eb as -> ->.
    assert (Hfj : nth_error (added c h1) (length fs) = Some f) by (rewrite E, nth_error_app2, Nat.sub_diag; auto).
    destruct (Hnev f) as [N1 N2]; [rewrite E; apply in_or_app; cbn; auto|].
    cbn [compose]. rewrite <- (link_comp (length fs) f x Hfj Hx Hx1 N1 N2). destruct fs' as [|f' fs'].
    - inversion HF'; subst. cbn [compose]. eapply chain_last; eauto.
    - assert (Hfj' : nth_error (added c h1) (Datatypes.S (length fs)) = Some f').
      { rewrite E, nth_error_app2 by lia. replace (Datatypes.S (length fs) - length fs) with 1 by lia. reflexivity. }
      destruct (Hnev f') as [N1' _]; [rewrite E; apply in_or_app; cbn; auto|].
      inversion HF' as [|? b' ? bs3 Hb' HF'']; subst. pose proof Hb' as (x' & Hx' & _ & Hs' & _).
      rewrite <- (chain_next (length fs) f f' Hfj Hfj'); auto.
      + apply (IH (fs ++ [f])); auto; [rewrite <- app_assoc; exact E|discriminate].
      + unfold clsof. rewrite Hx'. cbn. congruence. }
  assert (Ha : exists f0, nth_error (added c h1) 0 = Some f0) by (revert Hne; clear; destruct (added c h1) as [|f0 fs]; [contradiction|exists f0; reflexivity]).
  destruct Ha as (f0 & Ha). rewrite <- (chain_first f0).
  - apply (Hgen (added c h1) []); auto.
  - exact Ha.
  - apply (Hnev f0). eapply nth_error_In; eauto.
Qed.
End OneChain.
End Links.
