(** Properties of networks of filters. *)
From Coq Require Import List Arith Lia Bool.
From Verif Require Import Base Net_Model Net_Spec Net_Flow Net_Wiring Net_Proofs Net_Chain Net_Streams Net_Links Net_Life Net_Rank.
Import ListNotations.

Section Props.
Context {S M U : Type}.
Notation target := (target U).
Notation state := (state S M U).
Notation obs := (obs M U).
Notation op := (op S M U).
Notation class := (class S M).

(** ** C49: a chain is the composition of its filters *)
(** Over any part [h2] of a program, the messages signalled by a chain are the composition of
    what its filters compute, applied to the messages the chain receives.  The filters are those
    added before [h2]; each takes the state it has then. *)
Theorem C49_chain_is_composition fuel c h1 h2 (s1 s2 : state) rs1 rs2 bs :
  run fuel [] h1 = Ok (s1, rs1) -> run fuel s1 h2 = Ok (s2, rs2) ->
  created Chain c h1 rs1 ->
  chained_properly (h1 ++ h2) -> ~ In c (added c h1) -> never (extends_chain c) h2 ->
  (forall f, f = c \/ In f (added c h1) -> never (destroys f) (h1 ++ h2)) ->
  (forall f, In f (added c h1) -> never (feeds f) h2 /\ never (drives f) h2) ->
  added c h1 <> [] ->
  Forall2 (fun f b => exists x, nth_error s1 f = Some x /\ cls x <> Chain /\ cls x <> Source /\ b = (st x, behave (cls x))) (added c h1) bs ->
  outputs c (trace rs2) = compose bs (map snd (received c (trace rs2))).
Proof.
  intros R1 R2 Hc Hp Hs He Hd Hf Hne Hb. destruct (created_view _ _ _ _ _ _ R1 Hc) as (V1 & V2 & _).
  eapply (chain_compose fuel c h1 h2 s1 s2 rs1 rs2); eauto.
Qed.

(** Whatever the filters compute (also chains as filters, filters that signal on their own):
    the first filter receives what the chain receives, every other one what the one before it
    signals, and the chain signals what the last one signals. *)
Theorem C49_chain_traversal fuel c h1 h2 (s1 s2 : state) rs1 rs2 :
  run fuel [] h1 = Ok (s1, rs1) -> run fuel s1 h2 = Ok (s2, rs2) ->
  created Chain c h1 rs1 ->
  chained_properly (h1 ++ h2) -> ~ In c (added c h1) -> never (extends_chain c) h2 ->
  (forall f, f = c \/ In f (added c h1) -> never (destroys f) (h1 ++ h2)) ->
  (forall f, In f (added c h1) -> never (feeds f) h2) ->
  (forall f, nth_error (added c h1) 0 = Some f -> inputs f 0 (trace rs2) = map snd (received c (trace rs2))) /\
  (forall j f f', nth_error (added c h1) j = Some f -> nth_error (added c h1) (Datatypes.S j) = Some f' ->
     (exists cl, created cl f' h1 rs1 /\ cl <> Source) -> inputs f' 0 (trace rs2) = outputs f (trace rs2)) /\
  (forall fs f, added c h1 = fs ++ [f] -> outputs c (trace rs2) = outputs f (trace rs2)) /\
  (added c h1 = [] -> outputs c (trace rs2) = []).
Proof.
  intros R1 R2 Hc Hp Hs He Hd Hf. destruct (created_view _ _ _ _ _ _ R1 Hc) as (V1 & V2 & _). repeat split.
  - intros f H. eapply (chain_first fuel c h1 h2 s1 s2 rs1 rs2); eauto. apply Hf. eapply nth_error_In; eauto.
  - intros j f f' H H' (cl & Hcl & Hsrc). destruct (created_view _ _ _ _ _ _ R1 Hcl) as (W & _).
    eapply (chain_next fuel c h1 h2 s1 s2 rs1 rs2); eauto; [congruence|apply Hf; eapply nth_error_In; eauto].
  - intros fs f H. eapply (chain_last fuel c h1 h2 s1 s2 rs1 rs2); eauto.
  - intros H. eapply (chain_empty fuel c h1 h2 s1 s2 rs1 rs2); eauto.
Qed.

(** A user callback of a filter is called with exactly what the filter signals, once each. *)
Theorem C49_callbacks_get_the_output fuel h1 g u h2 (s : state) rs (p : U -> bool) k tr0 :
  run fuel [] (h1 ++ Register g u :: h2) = Ok (s, rs) ->
  nth_error rs (length h1) = Some (Connected k, tr0) ->
  p u = true -> never (registers p) h1 -> never (registers p) h2 -> never (drops g k) h2 ->
  calls p (trace (skipn (Datatypes.S (length h1)) rs)) = outputs g (trace (skipn (Datatypes.S (length h1)) rs)).
Proof. apply register_streams. Qed.

(** ... until it is disconnected, which is possible as long as the filter exists; from then on it is
    not called again. *)
Lemma nodup_keys {A} (l : list (nat * A)) k a b : NoDup (map fst l) -> In (k, a) l -> In (k, b) l -> a = b.
Proof.
  induction l as [|[k' x] l IH]; cbn; [tauto|]. intros ND HA HB. inversion ND as [|? ? N1 N2]; subst.
  destruct HA as [HA|HA]; destruct HB as [HB|HB]; [congruence| | |auto].
  - injection HA as -> ->. elim N1. now apply (in_map fst) in HB.
  - injection HB as -> ->. elim N1. now apply (in_map fst) in HA.
Qed.
Theorem C49_disconnected_callback fuel h1 g u h2 (s : state) rs (p : U -> bool) k tr0 :
  run fuel [] (h1 ++ Register g u :: h2) = Ok (s, rs) ->
  nth_error rs (length h1) = Some (Connected k, tr0) ->
  p u = true -> never (registers p) h1 -> never (registers p) h2 -> never (drops g k) h2 -> never (destroys g) (h1 ++ Register g u :: h2) ->
  exists s', step fuel s (Disconnect g k) = Ok (s', Done, []) /\
    forall h3 s3 rs3, run fuel s' h3 = Ok (s3, rs3) -> never (registers p) h3 -> calls p (trace rs3) = [].
Proof.
  intros Hrun Hk Hu Hn1 Hn2 Hd Hdes. pose proof Hrun as Hall.
  replace (h1 ++ Register g u :: h2) with ((h1 ++ [Register g u]) ++ h2) in Hrun by (now rewrite <- app_assoc).
  apply run_app in Hrun as (s1 & rs1 & rs2 & H1 & H2 & -> & L1). rewrite app_length in L1. cbn in L1.
  pose proof H1 as H1'. apply run_snoc in H1' as (s0 & rs0 & r0 & tr1 & H0 & Hstep & E0 & L0).
  rewrite E0 in Hk. rewrite nth_error_app1 in Hk by (rewrite app_length; cbn; lia). rewrite <- L0 in Hk. rewrite nth_error_app2, Nat.sub_diag in Hk by lia.
  cbn in Hk. injection Hk as -> ->.
  cbn [step] in Hstep. destruct (user s0 g) as [x|] eqn:Hux; [|discriminate]. cbn [bind] in Hstep.
  destruct (register s0 g (ToUser u)) as [[s1' k']|] eqn:Hr; [|discriminate]. cbn [bind] in Hstep. injection Hstep as -> -> _.
  destruct (register_eff _ _ _ _ _ Hr) as [SB _ _ R3 _ _ _ _]. pose proof (occ_snoc s0 s1 g k (ToUser u) R3) as Hocc.
  assert (Hone : forall g' k' u', p u' = true -> occ s1 g' k' (ToUser u') -> g' = g /\ k' = k).
  { intros g' k' u' Hp Ho. apply Hocc in Ho as [Ho|(-> & -> & _)]; auto. exfalso.
    eapply (no_new_user fuel h1 p g' k' u' [] []) in Ho; eauto; [|reflexivity]. unfold occ, cbsof in Ho. now destruct g'. }
  assert (Hg1 : occ s1 g k (ToUser u)) by (apply Hocc; auto).
  pose proof (run_inv _ _ _ _ Hall) as I2.
  destruct (user_view _ _ _ Hux) as (_ & _ & _ & _ & Ix & Lx).
  pose proof Hall as Hall'. apply run_app in Hall' as (s0' & rsa & rsb & H0' & H02 & _ & _). rewrite H0 in H0'. injection H0' as <- <-.
  destruct (run_len _ _ _ _ _ _ _ _ H0 eq_refl H02) as [Lg D].
  destruct (D g Lx) as (_ & Hi & _). rewrite Ix in Hi.
  assert (Ha : aliveof s g = true) by (eapply never_destroyed; eauto; lia).
  pose proof (keep_user _ _ _ _ _ _ _ _ _ _ H1 H2 Hd Hg1 Ha) as Hg2.
  destruct (user_of _ _ Ha Hi) as (y & Hy). destruct (user_view _ _ _ Hy) as (Hl & _).
  destruct (live_view _ _ _ Hl) as (_ & _ & _ & _ & _ & _ & _ & Hcb).
  assert (FB : forallb (fun c => negb (Nat.eqb (fst c) k) || is_user (snd c)) (cbs y) = true).
  { apply forallb_forall. intros [k1 t1] Hin. cbn [fst snd]. destruct (Nat.eqb_spec k1 k) as [->|]; auto. cbn [negb orb].
    assert (t1 = ToUser u) as ->; [|reflexivity]. pose proof (i_nodup _ _ I2 g) as ND. unfold occ in Hg2. rewrite Hcb in *.
    eapply nodup_keys; eauto. }
  destruct (disconnect s (Some (g, k))) as [s'|] eqn:Ed; [|cbn in Ed; rewrite Hl in Ed; discriminate].
  assert (ES : step fuel s (Disconnect g k) = Ok (s', Done, [])) by (cbn [step]; rewrite Hy; cbn [bind]; rewrite FB, Ed; reflexivity).
  exists s'. split; [exact ES|]. intros h3 s3 rs3 H3 Hn3.
  assert (Hr' : run fuel [] ((h1 ++ Register g u :: h2) ++ [Disconnect g k]) = Ok (s', (rs1 ++ rs2) ++ [(Done, [])])).
  { eapply run_cat; [exact Hall|]. cbn [run]. rewrite ES. reflexivity. }
  assert (None' : forall g' k' u', p u' = true -> ~ occ s' g' k' (ToUser u')).
  { intros g' k' u' Hp Ho. destruct (disconnect_eff _ _ _ _ Ed) as [_ Rc _ _ _ _]. unfold occ in Ho. rewrite Rc in Ho.
    destruct (Nat.eqb_spec g' g) as [->|Ng].
    - apply erase_in in Ho as [Ho Hne]; [|apply (i_nodup _ _ I2)]. eapply no_new_user in Ho; [|exact H1|exact H2|exact Hn2|exact Hp]. apply Hone in Ho as [_ ->]; auto.
    - eapply no_new_user in Ho; [|exact H1|exact H2|exact Hn2|exact Hp]. apply Hone in Ho as [-> _]; auto. }
  apply (run_streams (calls p) (fun _ => []) fuel h3 _ [] s' s3 _ rs3 (calls_app p) (fun _ _ => eq_refl) eq_refl Hr' H3).
  intros ha o hb sa rsa sb r tr E Hra Hrb Hs. rewrite <- acts_calls. rewrite E in Hn3. apply never_app in Hn3 as [Hn3 _].
  eapply step_unfed; [eapply run_inv; exact Hra| | | |exact Hs|destruct o; reflexivity].
  - intros g' k' t Ho. destruct t as [u'|n i|n]; try reflexivity. cbn. destruct (p u') eqn:Ep; auto.
    exfalso. eapply no_new_user in Ho; [|exact Hr'|exact Hrb|exact Hn3|exact Ep]. eapply None'; eauto.
  - intros. reflexivity.
  - intros. reflexivity.
Qed.
Example disconnect_example : exists s rs, run 9 [] ([New (S := nat) (M := nat) (U := nat) Source 0; Register 0 3] ++ Register 0 5 :: [Emit 0 7]) = Ok (s, rs) /\
  nth_error rs 2 = Some (Connected 1, []) /\ never (drops 0 1) [Emit (S := nat) (M := nat) (U := nat) 0 7] /\
  exists s' rs', run 9 s [Disconnect 0 1; Emit 0 8] = Ok (s', rs') /\
    calls (Nat.eqb 5) (trace rs) = [7] /\ calls (Nat.eqb 3) (trace rs') = [8] /\ calls (Nat.eqb 5) (trace rs') = [].
Proof. eexists _, _. split; [vm_compute; reflexivity|]. split; [reflexivity|]. split; [intros o [<-|[]]; reflexivity|]. eexists _, _. split; [vm_compute; reflexivity|]. repeat split; reflexivity. Qed.

(** From the program to the callback: filters created and added, a callback registered, then
    messages added to the chain by hand. *)
Theorem C49_chain_end_to_end fuel c u h1 h2 (s : state) rs (p : U -> bool) k tr0 bs :
  run fuel [] (h1 ++ Register c u :: h2) = Ok (s, rs) ->
  nth_error rs (length h1) = Some (Connected k, tr0) ->
  p u = true -> never (registers p) h1 -> never (registers p) h2 -> never (drops c k) h2 ->
  (forall o, In o h1 -> quiet o = true) ->
  created Chain c h1 (firstn (length h1) rs) ->
  chained_properly (h1 ++ Register c u :: h2) -> never (connects c) (h1 ++ Register c u :: h2) -> never (extends_chain c) h2 ->
  (forall f, f = c \/ In f (added c h1) -> never (destroys f) (h1 ++ Register c u :: h2)) ->
  (forall f, In f (added c h1) -> never (feeds f) h2 /\ never (drives f) h2) ->
  added c h1 <> [] ->
  Forall2 (fun f b => exists cl x0, creates cl x0 f h1 (firstn (length h1) rs) /\ cl <> Chain /\ cl <> Source /\ b = (x0, behave cl)) (added c h1) bs ->
  calls p (trace (skipn (Datatypes.S (length h1)) rs)) = compose bs (adds c 0 h2).
Proof.
  intros Hrun Hk Hu Hn1 Hn2 Hdr Hq Hc Hp Hnc He Hd Hf Hne Hb. rewrite (register_streams _ _ _ _ _ _ _ _ _ _ Hrun Hk Hu Hn1 Hn2 Hdr).
  apply run_app in Hrun as (s1 & rs1 & rs2 & R1 & R2 & -> & L). rewrite <- L in *. rewrite firstn_app, firstn_all, Nat.sub_diag in Hc, Hb. cbn [firstn] in Hc, Hb. rewrite app_nil_r in Hc, Hb.
  rewrite skipn_app, skipn_all2 by lia. replace (Datatypes.S (length rs1) - length rs1) with 1 by lia. cbn [app].
  assert (Hskip : trace (skipn 1 rs2) = trace rs2).
  { cbn [run] in R2. destruct (step fuel s1 (Register c u)) as [[[s3 r3] tr3]|] eqn:Es; [|discriminate]. cbn [bind] in R2.
    destruct (run fuel s3 h2) as [[s4 rs4]|]; [|discriminate]. cbn [bind] in R2. injection R2 as <- <-. cbn.
    destruct (step_trace _ _ _ _ _ _ Es) as [(n & i & m & E & _)|[(n & m & E & _)| ->]]; try discriminate. reflexivity. }
  rewrite Hskip. destruct (created_view _ _ _ _ _ _ R1 Hc) as (V1 & V2 & V3).
  assert (Hslots : acts (other_slot c) (trace rs2) = []).
  { unfold other_slot. assert (Hall : forall i, i <> 0 -> inputs c i (trace rs2) = []).
    { intros i Hi. rewrite (direct_streams fuel h1 (Register c u :: h2) c s1 s rs1 rs2 i R1 R2 V3 V2 Hnc).
      assert (Hno : forall m n, In (Add c (Datatypes.S n) m) (Register c u :: h2) -> False).
      { intros m n Hin. apply (in_map (fun o => o)) in Hin. rewrite map_id in Hin. apply In_nth_error in Hin as (j & Hj).
        destruct (run_res _ _ _ _ _ _ _ R2 Hj) as (sa & rsa & sb & r & tr & rsb & A1 & A2 & _). cbn [step] in A2. destruct (user sa c) as [x|] eqn:Ux; [|discriminate].
        destruct (user_view _ _ _ Ux) as (_ & _ & Cx & _). destruct (run_len _ _ _ _ _ _ _ _ R1 eq_refl A1) as [_ D]. destruct (D c V3) as (E & _).
        rewrite Cx, V1 in E. injection E as E. cbn [bind] in A2. rewrite E in A2. cbn in A2. discriminate. }
      unfold adds. cbn [flat_map app]. revert Hno. clear -Hi. induction h2 as [|o h2 IH]; auto. intros Hno. cbn [flat_map].
      rewrite IH by (intros m n [E|E]; [discriminate|]; eapply (Hno m n); cbn; auto). rewrite app_nil_r. destruct o as [| | | | | |n' i' m| |]; auto.
      destruct (Nat.eqb_spec n' c) as [->|]; auto. destruct (Nat.eqb_spec i' i) as [->|]; auto. destruct i; [contradiction|]. exfalso. eapply (Hno m i). cbn; auto. }
    revert Hall. generalize (trace rs2). intros l. induction l as [|o l IH]; intros Hall; auto. cbn [acts flat_map]. unfold acts in IH. rewrite IH.
    - rewrite app_nil_r. destruct o as [u' m|n i m|n m]; auto. cbn. destruct (Nat.eqb_spec n c) as [->|]; auto. destruct (Nat.eqb_spec i 0) as [|Hi]; auto. exfalso.
      specialize (Hall i Hi). cbn in Hall. rewrite !Nat.eqb_refl in Hall. discriminate.
    - intros i Hi. specialize (Hall i Hi). cbn [inputs flat_map] in Hall. apply app_eq_nil in Hall as [_ Hall]. exact Hall. }
  assert (Hself : ~ In c (added c h1)).
  { intros Hin. apply added_joins in Hin. pose proof (joins_le c h1). apply never_app in Hnc as [Hnc _]. apply times_never in Hnc. lia. }
  rewrite (C49_chain_is_composition fuel c h1 (Register c u :: h2) s1 s rs1 rs2 bs); auto.
  - f_equal. rewrite (slot0 _ _ Hslots), map_map. cbn. rewrite map_id.
    rewrite (direct_streams fuel h1 (Register c u :: h2) c s1 s rs1 rs2 0 R1 R2 V3 V2 Hnc). reflexivity.
  - intros o [<-|Ho]; auto.
  - intros f Hin. destruct (Hf f Hin) as [F1 F2]. split; intros o [<-|Ho]; auto.
  - clear -Hb R1 Hq. induction Hb as [|f b fs bs (cl & x0 & Hcr & N1 & N2 & ->) Hb IH]; constructor; auto.
    destruct (created_state _ _ _ _ _ _ _ R1 Hcr Hq) as (x & Hx & <- & <-). exists x. auto.
Qed.

(** A subscriber may be connected and given messages like any filter (so that it can be the first
    of a chain): both are ignored. *)
Theorem C49_subscriber_ignores_input fuel h (s : state) rs n f fuel' m cl :
  run fuel [] h = Ok (s, rs) -> created Source n h rs -> never (destroys n) h ->
  created cl f h rs -> never (destroys f) h ->
  step fuel s (ConnectInput n [f]) = Ok (s, Done, []) /\
  step (Datatypes.S fuel') s (Add n 0 m) = Ok (s, Done, [Input n 0 m]).
Proof.
  intros H Hc Hd Hcf Hdf.
  destruct (created_view _ _ _ _ _ _ H Hc) as (V1 & V2 & V3). destruct (created_view _ _ _ _ _ _ H Hcf) as (W1 & W2 & W3).
  pose proof (never_destroyed _ _ _ _ _ H V3 V2 Hd) as Ha. destruct (user_of _ _ Ha V2) as (x & Hx). destruct (user_view _ _ _ Hx) as (Hl & _ & Cx & _).
  pose proof (never_destroyed _ _ _ _ _ H W3 W2 Hdf) as Hb. destruct (user_of _ _ Hb W2) as (y & Hy).
  rewrite V1 in Cx. injection Cx as Cx. split.
  - cbn [step all_users]. rewrite Hx, Hy. cbn [bind]. unfold connect_input. rewrite Hl. cbn [bind]. now rewrite <- Cx.
  - cbn [step deliver]. rewrite Hx. cbn [bind]. rewrite <- Cx. cbn [arity]. rewrite Hl. cbn [Nat.ltb Nat.leb bind]. rewrite <- Cx. cbn [behave emit_all bind].
    do 3 f_equal. unfold live in Hl. destruct (nth_error s n) as [z|] eqn:E; [|discriminate]. destruct (alive z); [|discriminate]. injection Hl as ->.
    replace (set_st x (st x)) with x by now destruct x. rewrite <- (nth_error_nth s n x E) at 1. apply upd_nth_id.
Qed.
Example subscriber_first : exists s rs, run 9 [] [New Source 0; New (S := nat) (M := nat) (U := nat) Chain 0; AddFilter 1 0 0; Register 1 5; Emit 0 7; Add 1 0 8] = Ok (s, rs) /\
  created Source 0 [New Source 0; New Chain 0; AddFilter 1 0 0; Register 1 5; Emit 0 7; Add 1 0 8] rs /\
  calls (fun _ => true) (trace rs) = [7].
Proof. eexists _, _. split; [vm_compute; reflexivity|]. split; [exists 0, 0, []; auto|reflexivity]. Qed.

(** ** C50: indices *)
Theorem C50_add_filter_index fuel h c f s0 (s : state) rs :
  run fuel [] (h ++ [AddFilter c f s0]) = Ok (s, rs) -> nth_error rs (length h) = Some (Index (length (added c h)), []).
Proof.
  intros H. apply run_snoc in H as (s1 & rs1 & r & tr & H1 & H2 & -> & L). rewrite <- L, nth_error_app2, Nat.sub_diag by lia. cbn [nth_error]. f_equal.
  pose proof (run_chains _ _ _ _ H1) as HC. cbn [step] in H2. destruct (user s1 c) as [xc|]; [|discriminate]. cbn [bind] in H2.
  destruct (user s1 f) as [xf|]; [|discriminate]. cbn [bind] in H2. destruct (add_filter s1 c f s0) as [[s2 i]|] eqn:E; [|discriminate]. cbn [bind] in H2. injection H2 as _ <- <-.
  f_equal. f_equal. unfold add_filter in E. destruct (live s1 c) as [x|] eqn:Hl; [|discriminate]. cbn [bind] in E. destruct (cls x); try discriminate.
  destruct (live_view _ _ _ Hl) as (_ & _ & _ & _ & _ & Vf & _).
  repeat match type of E with context [bind ?e _] => destruct e as [?|] eqn:?; [cbn [bind] in E|discriminate]; try match goal with p : _ * _ |- _ => destruct p end end.
  injection E as _ <-. rewrite <- (ch_hist _ _ HC), map_length. now rewrite Vf.
Qed.
Theorem C50_get_filter fuel h c i (s : state) rs :
  run fuel [] (h ++ [GetFilter c i]) = Ok (s, rs) -> nth_error rs (length h) = Some (Filter (nth_error (added c h) i), []).
Proof.
  intros H. apply run_snoc in H as (s1 & rs1 & r & tr & H1 & H2 & -> & L). rewrite <- L, nth_error_app2, Nat.sub_diag by lia. cbn [nth_error]. f_equal.
  pose proof (run_chains _ _ _ _ H1) as HC. cbn [step] in H2. destruct (user s1 c) as [x|] eqn:Hu; [|discriminate]. cbn [bind] in H2. destruct (cls x); try discriminate.
  injection H2 as _ <- <-. f_equal. f_equal. destruct (user_view _ _ _ Hu) as (Hl & _). destruct (live_view _ _ _ Hl) as (_ & _ & _ & _ & _ & Vf & _).
  rewrite <- (ch_hist _ _ HC), nth_error_map. now rewrite Vf.
Qed.

(** ** C51, C53: what a filter receives after connectInput *)
(** All kinds but Cache (and user filters that do not disconnect): whatever happened before,
    input [i] receives exactly what the [i]-th filter given signals from now on, until the next
    connectInput, and an input without filter receives nothing. *)
Theorem C51_reconnecting_replaces_partial fuel h1 n fs h2 (s : state) rs cl :
  run fuel [] (h1 ++ ConnectInput n fs :: h2) = Ok (s, rs) ->
  created cl n (h1 ++ ConnectInput n fs :: h2) rs ->
  cl = PassThrough \/ cl = Chain \/ cl = Sequencer \/ (exists k, cl = Synchronizer k) \/ (exists d k f, cl = Custom true d k f) ->
  never (joins n) (h1 ++ ConnectInput n fs :: h2) ->
  never (connects n) h2 -> never (destroys n) h2 -> never (feeds n) h2 ->
  forall i, inputs n i (trace (skipn (Datatypes.S (length h1)) rs)) =
    match nth_error fs i with Some f => outputs f (trace (skipn (Datatypes.S (length h1)) rs)) | None => [] end.
Proof.
  intros H Hc Hcl. destruct (created_view _ _ _ _ _ _ H Hc) as (V & _). apply (connect_streams fuel h1 n fs h2 s rs cl H V).
  - destruct Hcl as [->|[->|[->|[(k & ->)|(d & k & f & ->)]]]]; discriminate.
  - left. destruct Hcl as [->|[->|[->|[(k & ->)|(d & k & f & ->)]]]]; reflexivity.
Qed.
(** Every kind, connected once *)
Theorem C51_connected_once fuel h1 n fs h2 (s : state) rs cl :
  run fuel [] (h1 ++ ConnectInput n fs :: h2) = Ok (s, rs) ->
  created cl n (h1 ++ ConnectInput n fs :: h2) rs -> cl <> Source ->
  times (connects n) (h1 ++ ConnectInput n fs :: h2) = 1 ->
  never (joins n) (h1 ++ ConnectInput n fs :: h2) ->
  never (connects n) h2 -> never (destroys n) h2 -> never (feeds n) h2 ->
  forall i, inputs n i (trace (skipn (Datatypes.S (length h1)) rs)) =
    match nth_error fs i with Some f => outputs f (trace (skipn (Datatypes.S (length h1)) rs)) | None => [] end.
Proof.
  intros H Hc Hcl Ht. destruct (created_view _ _ _ _ _ _ H Hc) as (V & _). apply (connect_streams fuel h1 n fs h2 s rs cl H V Hcl). auto.
Qed.
Theorem C53_synchronizer_slots fuel h1 n fs h2 (s : state) rs k :
  run fuel [] (h1 ++ ConnectInput n fs :: h2) = Ok (s, rs) ->
  created (Synchronizer k) n (h1 ++ ConnectInput n fs :: h2) rs ->
  never (connects n) h2 -> never (destroys n) h2 -> never (feeds n) h2 ->
  never (joins n) (h1 ++ ConnectInput n fs :: h2) ->
  forall i, inputs n i (trace (skipn (Datatypes.S (length h1)) rs)) =
    match nth_error fs i with Some f => outputs f (trace (skipn (Datatypes.S (length h1)) rs)) | None => [] end.
Proof. intros H Hc. intros. eapply C51_reconnecting_replaces_partial; eauto 10. Qed.

(** ** C52: emitting after a destruction *)
(** If every filter destroyed so far disconnects in its destructor, lost no connection and
    belongs to no chain, then adding or emitting a message through any filter that still exists
    never touches a destroyed one. *)
Theorem C52_no_delivery_to_destroyed_partial fuel h (s : state) rs fuel' cl n :
  run fuel [] h = Ok (s, rs) -> clean_destroys h rs ->
  created cl n h rs -> never (destroys n) h ->
  (forall i m, i < arity cl -> step fuel' s (Add n i m) <> Err UB) /\
  (forall m, emits cl = true -> step fuel' s (Emit n m) <> Err UB).
Proof.
  intros H Hcl Hc Hd. pose proof (clean_network _ _ _ _ H (clean_detached _ _ _ _ H Hcl)) as HS. destruct (created_view _ _ _ _ _ _ H Hc) as (V1 & V2 & V3).
  pose proof (never_destroyed _ _ _ _ _ H V3 V2 Hd) as Ha. destruct (user_of _ _ Ha V2) as (x & Hx). destruct (user_view _ _ _ Hx) as (_ & _ & Cx & _).
  rewrite V1 in Cx. injection Cx as Cx. split.
  - intros i m Hi. cbn [step]. rewrite Hx. cbn [bind]. rewrite <- Cx. destruct (Nat.ltb_spec i (arity cl)); [|lia].
    pose proof (deliver_safe fuel' s [] (ToInput n i) m HS Ha) as Hh. destruct (deliver fuel' s [] (ToInput n i) m) as [[s' tr]|e]; [discriminate|].
    cbn in *. intros E. injection E as ->. destruct Hh; discriminate.
  - intros m He. cbn [step]. rewrite Hx. cbn [bind]. rewrite <- Cx, He.
    pose proof (deliver_safe (Datatypes.S fuel') s [] (ToOutput n) m HS Ha) as Hh. cbn [deliver] in Hh. destruct (live_of _ _ Ha) as (y & Hy). rewrite Hy in Hh. cbn [bind] in Hh.
    destruct (emit (deliver fuel') s [] n m) as [[s' tr]|e]; [discriminate|]. cbn in *. intros E. injection E as ->. destruct Hh; discriminate.
Qed.

(** ** C72: order of destruction *)
(** A filter can be destroyed, or connected elsewhere, if everything it was ever connected to
    still exists. *)
Theorem C72_downstream_first_partial fuel h cl n (s : state) rs :
  run fuel [] h = Ok (s, rs) -> created cl n h rs -> never (destroys n) h -> upstream_alive n h ->
  exists s', step fuel s (Destroy n) = Ok (s', Done, []).
Proof. intros H Hc Hd Hu. destruct (created_view _ _ _ _ _ _ H Hc) as (V1 & V2 & V3). eapply destroy_total; eauto. Qed.

(** ** C73: networks without cycles *)
Theorem C73_acyclic_networks_complete fuel h (s : state) rs rin rout cl n :
  run fuel [] h = Ok (s, rs) -> acyclic rin rout h -> clean_destroys h rs ->
  created cl n h rs -> never (destroys n) h ->
  exists depth, forall fuel', depth <= fuel' ->
    (forall i m, i < arity cl -> exists s' tr, step fuel' s (Add n i m) = Ok (s', Done, tr)) /\
    (forall m, emits cl = true -> exists s' tr, step fuel' s (Emit n m) = Ok (s', Done, tr)).
Proof.
  intros H HA Hcl Hc Hd. destruct (created_view _ _ _ _ _ _ H Hc) as (V1 & V2 & V3). exists (3 * rin n + 2). intros fuel' Hf.
  destruct (acyclic_total _ _ _ _ _ _ n H HA (clean_detached _ _ _ _ H Hcl) V3 V2 Hd) as [T1 T2].
  unfold clsof in V1. destruct (nth_error s n) as [x|] eqn:Hx; [|discriminate]. cbn in V1. injection V1 as <-. split.
  - intros i m Hi. specialize (T1 x i m fuel' eq_refl Hi ltac:(lia)). cbn [step] in *. destruct (user s n); [|destruct T1]. cbn [bind] in *.
    destruct (i <? arity _); [|destruct T1]. destruct (deliver _ _ _ _ _) as [[s' tr]|]; [|destruct T1]. cbn. eauto.
  - intros m He. specialize (T2 x m fuel' eq_refl He ltac:(lia)). cbn [step] in *. destruct (user s n) as [y|]; [|destruct T2]. cbn [bind] in *.
    destruct (emits (cls y)); [|destruct T2]. destruct (emit _ _ _ _ _) as [[s' tr]|]; [|destruct T2]. cbn. eauto.
Qed.
End Props.

(** ** Where the library falls short *)
Notation Op := (op nat nat nat).
(** C51: a Cache connected again keeps receiving from the first filter *)
Definition cache_twice : list Op := [New Source 0; New Source 0; New Cache 0; ConnectInput 2 [0]; ConnectInput 2 [1]; Emit 0 5].
Theorem C51_cache_keeps_old_input_refuted : exists s rs, run 9 [] cache_twice = Ok (s, rs) /\
  created Cache 2 cache_twice rs /\ never (connects 2) [Emit 0 5 : Op] /\
  inputs 2 0 (trace (skipn 5 rs)) <> outputs 1 (trace (skipn 5 rs)).
Proof.
  eexists _, _. split; [reflexivity|]. split; [exists 0, 2, []; auto|]. split; [intros o [<-|[]]; reflexivity|]. cbn. discriminate.
Qed.
(** C52: destroying a PassThrough, a Chain, or a Cache connected twice leaves a dangling callback *)
Theorem C52_passthrough_refuted : exists s rs, run 9 [] [New Source 0; New PassThrough 0; ConnectInput 1 [0]; Destroy 1 : Op] = Ok (s, rs) /\
  forall fuel m, step (S (S fuel)) s (Emit 0 m) = Err UB.
Proof. eexists _, _. split; [reflexivity|]. intros. reflexivity. Qed.
Theorem C52_chain_refuted : exists s rs, run 9 [] [New Source 0; New Chain 0; ConnectInput 1 [0]; Destroy 1 : Op] = Ok (s, rs) /\
  forall fuel m, step (S (S fuel)) s (Emit 0 m) = Err UB.
Proof. eexists _, _. split; [reflexivity|]. intros. reflexivity. Qed.
Theorem C52_chain_filter_refuted : exists s rs, run 9 [] [New Chain 0; New PassThrough 0; AddFilter 0 1 0; Destroy 0 : Op] = Ok (s, rs) /\
  forall fuel m, step (S (S fuel)) s (Add 1 0 m) = Err UB.
Proof. eexists _, _. split; [reflexivity|]. intros. reflexivity. Qed.
Theorem C52_cache_refuted : exists s rs, run 9 [] [New Source 0; New Source 0; New Cache 0; ConnectInput 2 [0]; ConnectInput 2 [1]; Destroy 2 : Op] = Ok (s, rs) /\
  forall fuel m, step (S (S fuel)) s (Emit 0 m) = Err UB.
Proof. eexists _, _. split; [reflexivity|]. intros. reflexivity. Qed.
(** C72: the upstream filter destroyed first *)
Theorem C72_upstream_first_refuted : exists s rs, run 9 [] [New Source 0; New Cache 0; ConnectInput 1 [0]; Destroy 0 : Op] = Ok (s, rs) /\
  forall fuel, step fuel s (Destroy 1) = Err UB.
Proof. eexists _, _. split; [reflexivity|]. intros. reflexivity. Qed.
(** ... a chain destroyed before the filters it was given, which is also what happens when it
    owns them: a passthrough goes before the filter after it *)
Theorem C72_chain_first_refuted : exists s rs,
  run 9 [] [New Chain 0; New Cache 0; New Cache 0; AddFilter 0 1 0; AddFilter 0 2 0; Destroy 0 : Op] = Ok (s, rs) /\ forall fuel, step fuel s (Destroy 2) = Err UB.
Proof. eexists _, _. split; [reflexivity|]. intros. reflexivity. Qed.
(** ... a synchronizer reconnected with fewer inputs still remembers the others *)
Theorem C72_forgotten_input_refuted : exists s rs,
  run 9 [] [New Source 0; New Source 0; New Source 0; New (Synchronizer 2) 0; ConnectInput 3 [0; 1]; ConnectInput 3 [2]; Destroy 1 : Op] = Ok (s, rs) /\
  forall fuel, step fuel s (Destroy 3) = Err UB.
Proof. eexists _, _. split; [reflexivity|]. intros. reflexivity. Qed.
(** C73: cycles.  A filter connected to itself blocks on its own mutex; a chain added to itself
    recurses without end. *)
Theorem C73_loop_deadlocks : exists s rs, run 9 [] [New PassThrough 0; ConnectInput 0 [0] : Op] = Ok (s, rs) /\
  forall fuel m, step (S (S (S fuel))) s (Add 0 0 m) = Err Deadlock.
Proof. eexists _, _. split; [reflexivity|]. intros. reflexivity. Qed.
Theorem C73_chain_in_itself_recurses : exists s rs, run 9 [] [New Chain 0; AddFilter 0 0 0 : Op] = Ok (s, rs) /\
  forall fuel m, step fuel s (Add 0 0 m) = Err OutOfFuel.
Proof.
  eexists _, _. split; [vm_compute; reflexivity|]. intros fuel m.
  cbn -[deliver]. match goal with |- context [deliver ?a ?b ?c ?d ?e] => assert (H : deliver a b c d e = Err OutOfFuel); [|rewrite H; reflexivity] end.
  induction fuel as [|fuel IH]; [reflexivity|]. cbn [deliver]. unfold live. cbn [nth_error alive bind cls filters]. rewrite IH. reflexivity.
Qed.

(** ** Instances *)
(** a chain of two filters: double, then drop multiples of 4 keeping a count *)
Definition twice : class nat nat := Custom true true 1 (fun x _ m => (x, [2 * m])).
Definition not4 : class nat nat := Custom true true 1 (fun x _ m => if m mod 4 =? 0 then (x, []) else (S x, [m + 100 * x])).
Definition prog1 : list Op := [New Chain 0; New twice 0; New not4 0; AddFilter 0 1 0; AddFilter 0 2 0].
Definition prog2 : list Op := [Add 0 0 1; Add 0 0 2; Add 0 0 3; Add 0 0 5].

Example chain_program : exists s rs, run 9 [] (prog1 ++ Register 0 7 :: prog2) = Ok (s, rs) /\
  nth_error rs (length prog1) = Some (Connected 0, []) /\ calls (Nat.eqb 7) (trace (skipn 6 rs)) = [2; 106; 210].
Proof. eexists _, _. split; [vm_compute; reflexivity|]. split; vm_compute; reflexivity. Qed.

Example chain_program_by_theorem s rs : run 9 [] (prog1 ++ Register 0 7 :: prog2) = Ok (s, rs) ->
  calls (Nat.eqb 7) (trace (skipn 6 rs)) = compose [(0, behave twice); (0, behave not4)] [1; 2; 3; 5].
Proof.
  intros H. assert (E : rs = snd (match run 9 [] (prog1 ++ Register 0 7 :: prog2) with Ok x => x | Err _ => (s, rs) end)) by (rewrite H; reflexivity).
  vm_compute in E.
  apply (C49_chain_end_to_end 9 0 7 prog1 prog2 s rs (Nat.eqb 7) 0 [] [(0, behave twice); (0, behave not4)]); subst rs; auto.
  - intros o Ho. cbn in Ho. repeat destruct Ho as [<-|Ho]; try reflexivity; destruct Ho.
  - intros o Ho. cbn in Ho. repeat destruct Ho as [<-|Ho]; try reflexivity; destruct Ho.
  - intros o Ho. cbn in Ho. repeat destruct Ho as [<-|Ho]; try reflexivity; destruct Ho.
  - intros o Ho. cbn in Ho. repeat destruct Ho as [<-|Ho]; try reflexivity; destruct Ho.
  - exists 0, 0, []. auto.
  - intros f. cbn. destruct f as [|[|[|f]]]; cbn; lia.
  - intros o Ho. cbn in Ho. repeat destruct Ho as [<-|Ho]; try reflexivity; destruct Ho.
  - intros o Ho. cbn in Ho. repeat destruct Ho as [<-|Ho]; try reflexivity; destruct Ho.
  - intros f _ o Ho. cbn in Ho. repeat destruct Ho as [<-|Ho]; try reflexivity; destruct Ho.
  - intros f Hf. cbn in Hf. split; intros o Ho; cbn in Ho; repeat destruct Ho as [<-|Ho]; try reflexivity; try destruct Ho; cbn;
      destruct Hf as [<-|[<-|[]]]; reflexivity.
  - discriminate.
  - constructor; [|constructor; [|constructor]].
    + exists twice, 0. split; [exists 1, []; auto|]. repeat split; discriminate.
    + exists not4, 0. split; [exists 2, []; auto|]. repeat split; discriminate.
Qed.

(** indices *)
Example chain_indices : exists s rs, run 9 [] (prog1 ++ [GetFilter 0 1; GetFilter 0 2]) = Ok (s, rs) /\
  map fst (skipn 3 rs) = [Index 0; Index 1; Filter (Some 2); Filter None].
Proof. eexists _, _. split; [vm_compute; reflexivity|]. vm_compute; reflexivity. Qed.

(** a synchronizer of two inputs reconnected *)
Definition prog3 : list Op := [New Source 0; New Source 0; New Source 0; New (Synchronizer 2) 0; ConnectInput 3 [0; 1]; Emit 0 4; Emit 1 5].
Definition prog4 : list Op := [Emit 0 6; Emit 1 7; Emit 2 8; Emit 1 9].
Example reconnection : exists s rs, run 9 [] (prog3 ++ ConnectInput 3 [1; 2] :: prog4) = Ok (s, rs) /\
  inputs 3 0 (trace (skipn 8 rs)) = [7; 9] /\ inputs 3 1 (trace (skipn 8 rs)) = [8].
Proof. eexists _, _. split; [vm_compute; reflexivity|]. split; vm_compute; reflexivity. Qed.
Example reconnection_by_theorem s rs : run 9 [] (prog3 ++ ConnectInput 3 [1; 2] :: prog4) = Ok (s, rs) ->
  inputs 3 1 (trace (skipn 8 rs)) = outputs 2 (trace (skipn 8 rs)).
Proof.
  intros H. assert (E : rs = snd (match run 9 [] (prog3 ++ ConnectInput 3 [1; 2] :: prog4) with Ok x => x | Err _ => (s, rs) end)) by (rewrite H; reflexivity).
  vm_compute in E. apply (C53_synchronizer_slots 9 prog3 3 [1; 2] prog4 s rs 2 H).
  - subst rs. exists 0, 3, []. auto.
  - intros o Ho. cbn in Ho. repeat destruct Ho as [<-|Ho]; try reflexivity; destruct Ho.
  - intros o Ho. cbn in Ho. repeat destruct Ho as [<-|Ho]; try reflexivity; destruct Ho.
  - intros o Ho. cbn in Ho. repeat destruct Ho as [<-|Ho]; try reflexivity; destruct Ho.
  - intros o Ho. cbn in Ho. repeat destruct Ho as [<-|Ho]; try reflexivity; destruct Ho.
Qed.

(** destructions, and a network with levels: a source into a chain of one PassThrough and into a
    Cache (destroyed), the chain into a synchronizer *)
Definition prog5 : list Op := [New Source 0; New Chain 0; New PassThrough 0; AddFilter 1 2 0; ConnectInput 1 [0]; New (Synchronizer 1) 0; ConnectInput 4 [1];
  New Cache 0; ConnectInput 5 [0]; Emit 0 3; Destroy 5].
Definition lin (n : nat) : nat := nth n [22; 20; 19; 1; 2; 10] 1.
Definition lout (n : nat) : nat := nth n [21; 5; 18; 0; 1; 9] 0.
Example levels : acyclic lin lout prog5.
Proof.
  split.
  - intros n. destruct n as [|[|[|[|[|[|n]]]]]]; cbn; try lia; try discriminate. intros _. destruct n; cbn; lia.
  - intros n fs f Hi Hf. cbn in Hi. repeat destruct Hi as [Hi|Hi]; try discriminate; try (injection Hi as <- <-; destruct Hf as [<-|[]]; cbn; lia). destruct Hi.
  - intros c f. destruct (Nat.eq_dec c 1) as [->|Hc]; cbn; [intros E; injection E as <-; cbn; lia|].
    destruct c as [|[|c]]; cbn; try discriminate; lia.
  - intros c j f f'. destruct c as [|[|c]]; cbn; try (destruct j; discriminate). 
  - intros c f. destruct c as [|[|c]]; cbn; try tauto. intros [<-|[]]. cbn. lia.
Qed.
Example network_by_theorem s rs : run 9 [] prog5 = Ok (s, rs) ->
  exists depth, forall fuel', depth <= fuel' -> forall m, exists s' tr, step fuel' s (Emit 0 m) = Ok (s', Done, tr).
Proof.
  intros H. assert (E : rs = snd (match run 9 [] prog5 with Ok x => x | Err _ => (s, rs) end)) by (rewrite H; reflexivity). vm_compute in E.
  destruct (C73_acyclic_networks_complete 9 prog5 s rs _ _ Source 0 H levels) as (d & Hd).
  - intros ha n hb Eh. assert (Hn : n = 5 /\ hb = []).
    { unfold prog5 in Eh. do 11 (destruct ha as [|? ha]; cbn in Eh; [try discriminate Eh; injection Eh as <- <-; auto|injection Eh as _ Eh]). destruct ha; discriminate. }
    destruct Hn as [-> ->]. assert (ha = firstn 10 prog5) as ->.
    { apply (f_equal (@removelast _)) in Eh. rewrite removelast_last in Eh. now rewrite <- Eh. }
    split; [intros o Ho; cbn in Ho; repeat destruct Ho as [<-|Ho]; try reflexivity; destruct Ho|].
    exists Cache. split; [subst rs; exists 0, 7, []; auto|]. cbn. lia.
  - subst rs. exists 0, 0, []. auto.
  - intros o Ho. cbn in Ho. repeat destruct Ho as [<-|Ho]; try reflexivity; destruct Ho.
  - exists d. intros fuel' Hf m. apply (Hd fuel' Hf). reflexivity.
Qed.
Example network_runs : exists s rs, run 9 [] (prog5 ++ [Emit 0 4]) = Ok (s, rs) /\ inputs 4 0 (trace rs) = [3; 4] /\ inputs 5 0 (trace rs) = [3].
Proof. eexists _, _. split; [vm_compute; reflexivity|]. split; vm_compute; reflexivity. Qed.

(** downstream first *)
Example orderly : upstream_alive 5 (firstn 10 prog5).
Proof.
  split.
  - intros fs g Hi Hg. cbn in Hi. repeat destruct Hi as [Hi|Hi]; try discriminate; [|destruct Hi]. injection Hi as <-. destruct Hg as [<-|[]].
    intros o Ho. cbn in Ho. repeat destruct Ho as [<-|Ho]; try reflexivity; destruct Ho.
  - intros c s0 Hi. cbn in Hi. repeat destruct Hi as [Hi|Hi]; try discriminate; destruct Hi.
Qed.

Print Assumptions C49_chain_is_composition.
Print Assumptions C49_chain_traversal.
Print Assumptions C49_callbacks_get_the_output.
Print Assumptions C49_disconnected_callback.
Print Assumptions C49_chain_end_to_end.
Print Assumptions C50_add_filter_index.
Print Assumptions C50_get_filter.
Print Assumptions C51_reconnecting_replaces_partial.
Print Assumptions C51_connected_once.
Print Assumptions C53_synchronizer_slots.
Print Assumptions C52_no_delivery_to_destroyed_partial.
Print Assumptions C72_downstream_first_partial.
Print Assumptions C73_acyclic_networks_complete.
Print Assumptions C73_chain_in_itself_recurses.
Print Assumptions C49_subscriber_ignores_input.
