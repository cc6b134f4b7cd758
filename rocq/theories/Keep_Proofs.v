(** Lemmas for C115. *)
From Coq Require Import List Arith Lia Bool.
From Verif Require Import Base Event_Model Event_Spec Event_Proofs Keep_Model Keep_Spec.
Import ListNotations.

Section Proofs.
Context {V T : Type}.
Notation event := (event T).
Notation node := (node V).
Notation state := (state V T).

(** An effect on the objects that leaves existing ones alone; the rights to write given away are to new objects *)
Record fresh (h h' : heap V) (w : list nat) : Prop := mkFresh {
  fr_unch : unchanged h h'; fr_grow : length h <= length h'; fr_new : forall a, In a w -> length h <= a < length h' }.
Lemma fresh_refl h : fresh h h [].
Proof. split; auto; [apply unchanged_refl|intros a []]. Qed.
Lemma fresh_app h1 h2 h3 w1 w2 : fresh h1 h2 w1 -> fresh h2 h3 w2 -> fresh h1 h3 (w1 ++ w2).
Proof.
  intros [A1 A2 A3] [B1 B2 B3]. split; [eapply unchanged_trans; eauto|lia|]. intros a Ha. apply in_app_or in Ha as [Ha|Ha]; [apply A3 in Ha|apply B3 in Ha]; lia.
Qed.
Lemma iso_fresh' (v : V) k h h' os : Isolated v k h h' os -> fresh h h' (writable (map acc os)).
Proof. intros []. split; auto. Qed.

Lemma param_ro (h : heap V) (e : event) f v : nth_error h (msg e) = Some v -> mutable_form f = false ->
  exists a, param h e f = Ok (h, a) /\ see h a = Ok v /\ writable [a] = [].
Proof.
  intros Hv Hf. assert (read h (msg e) = Ok v) as Hr by (unfold read; now rewrite Hv).
  unfold param. destruct f; try discriminate; rewrite ?Hr; eexists; (split; [reflexivity|]); cbn; auto.
Qed.
Lemma call_ro (h : heap V) (e : event) (c : callback V) v : nth_error h (msg e) = Some v -> mutable_form (fm c) = false ->
  exists o, call_callback h e c = Ok (h, o) /\ seen o = v /\ writable [acc o] = [].
Proof.
  intros Hv Hf. destruct (param_ro h e (fm c) v Hv Hf) as (a & Ha & Hs & Hw). unfold call_callback. rewrite Ha. cbn [bind]. rewrite Hs. cbn [bind].
  exists (mkObs v a). split; [|split; [reflexivity|exact Hw]]. destruct a; cbn in *; auto. discriminate.
Qed.

(** A tree that is not a bare path to a mutable callback *)
Lemma call_node_harmless x : forall h (e : event) v, const e = true -> nth_error h (msg e) = Some v ->
  need e = true \/ (forall c, alone c x -> mutable_form (fm c) = false) ->
  exists h' os, call_node h e x = Ok (h', os) /\ fresh h h' (writable (map acc os)) /\ forall o, In o os -> seen o = v.
Proof.
  induction x as [c|l IH] using node_ind'; intros h e v Hc Hv HG.
  - destruct HG as [Hn|Ha].
    + destruct (call_node_copying (User c) h e v Hc Hn Hv) as (h' & os & E & I). exists h', os. split; auto. split; [eapply iso_fresh'; eauto|apply I].
    + destruct (call_ro h e c v Hv (Ha c (alone_user c))) as (o & E & S & W). cbn [call_node]. rewrite E. cbn. exists h, [o]. split; auto. cbn [map]. rewrite W. split; [apply fresh_refl|]. intros o' [<-|[]]; auto.
  - destruct (need e) eqn:Hn.
    { destruct (call_node_copying (Filter l) h e v Hc Hn Hv) as (h' & os & E & I). exists h', os. split; auto. split; [eapply iso_fresh'; eauto|apply I]. }
    destruct HG as [HG|Ha]; [discriminate|]. rewrite call_filter. destruct l as [|x [|y l]].
    + cbn. exists h, []. split; auto. split; [apply fresh_refl|intros o []].
    + inversion IH as [|? ? Hx _]; subst. cbn [length call_list]. destruct (Hx h (flagged (1 <? 1) e) v) as (h1 & o1 & E & F & S); auto.
      { right. intros c A. apply Ha. now constructor. }
      rewrite E. cbn [bind]. exists h1, (o1 ++ []). rewrite app_nil_r. auto.
    + change (1 <? length (x :: y :: l)) with true. clear IH Ha. revert h Hv. induction (x :: y :: l) as [|z ll IHl]; intros h0 Hv0; cbn [call_list].
      * exists h0, []. split; auto. split; [apply fresh_refl|intros o []].
      * destruct (call_node_copying z h0 (flagged true e) v) as (h1 & o1 & -> & I); auto. cbn [bind]. pose proof (iso_fresh' _ _ _ _ _ I) as F1.
        destruct (IHl h1) as (h2 & o2 & -> & F2 & S2); [now apply (fr_unch _ _ _ F1)|]. cbn [bind]. eexists _, _. split; [reflexivity|].
        unfold writable in *. rewrite map_app, flat_map_app. split; [eapply fresh_app; eauto|]. intros o Ho. apply in_app_or in Ho as [Ho|Ho]; auto. now apply I.
Qed.

(** A lone mutable callback and an event that demands no copies: the object itself is written *)
Lemma call_node_alone (c : callback V) x : alone c x -> forall h (e : event) v, const e = true -> nth_error h (msg e) = Some v -> need e = false -> mutable_form (fm c) = true ->
  exists o, call_node h e x = Ok (write h (msg e) (writes c v), [o]) /\ acc o = Mutable (msg e).
Proof.
  induction 1 as [|x A IH]; intros h e v Hc Hv Hn Hm.
  - assert (read h (msg e) = Ok v) as Hr by (unfold read; now rewrite Hv). cbn. unfold call_callback, param.
    destruct (fm c); try discriminate; unfold copy_event, get_message; rewrite Hc; cbn; rewrite Hn; cbn; rewrite Hr; cbn; eauto.
  - rewrite call_filter. cbn [length call_list]. destruct (IH h (flagged (1 <? 1) e) v) as (o & E & W); auto. rewrite E. cbn. eauto.
Qed.

Lemma params_harmless (es : list event) : forall fs (h : heap V) vs, (forall e, In e es -> const e = true) ->
  Forall2 (fun e f => need e = true \/ mutable_form f = false) es fs -> Forall2 (fun e v => nth_error h (msg e) = Some v) es vs ->
  exists h' l, params h es fs = Ok (h', l) /\ see_all h' l = Ok vs /\ fresh h h' (writable l).
Proof.
  induction es as [|e es IH]; intros fs h vs Hc HG HV; inversion HG as [|? f ? fs' HG1 HG2]; subst; inversion HV as [|? v ? vs' Hv HV2]; subst; cbn [params].
  - exists h, []. split; auto. split; auto. apply fresh_refl.
  - assert (exists h1 a, param h e f = Ok (h1, a) /\ see h1 a = Ok v /\ fresh h h1 (writable [a])) as (h1 & a & E1 & S1 & F1).
    { destruct (mutable_form f) eqn:Hf.
      - destruct HG1 as [Hn|]; [|discriminate].
        destruct (params_copying [f] h [e] [v]) as (h1 & l & Hp & HU & HS & _ & HFr & HGr); auto; [intros e' [<-|[]]; split; auto; apply Hc; now left|].
        cbn [params] in Hp. destruct (param h e f) as [[h2 a]|] eqn:E; [|discriminate]. cbn in Hp. injection Hp as <- <-. exists h2, a. split; auto. cbn [see_all] in HS.
        destruct (see h2 a) as [w|]; [|discriminate]. cbn in HS. injection HS as ->. split; auto. split; auto.
      - destruct (param_ro h e f v Hv Hf) as (a & E & S & W). exists h, a. rewrite W. split; auto. split; auto. apply fresh_refl. }
    rewrite E1. cbn [bind]. destruct (IH fs' h1 vs') as (h2 & l & E2 & S2 & F2); auto.
    { intros e' He'. apply Hc. now right. }
    { clear -HV2 F1. induction HV2; constructor; auto. now apply (fr_unch _ _ _ F1). }
    rewrite E2. cbn [bind]. exists h2, (a :: l). split; auto. split.
    + cbn [see_all]. assert (see h2 a = Ok v) as ->; [|now rewrite S2].
      clear -S1 F2. destruct a; cbn in *; auto; unfold read in *; destruct (nth_error h1 a) as [w|] eqn:E; try discriminate; now rewrite (fr_unch _ _ _ F2 _ _ E).
    + change (a :: l) with ([a] ++ l). unfold writable in *. rewrite flat_map_app. eapply fresh_app; eauto.
Qed.
Lemma call9_harmless force (cbs : list (callback9 V)) : forall (h : heap V) (es : list event) vs, (forall e, In e es -> const e = true) ->
  harmless9 es cbs -> Forall2 (fun e v => nth_error h (msg e) = Some v) es vs ->
  exists h' os, call9 force h es cbs = Ok (h', os) /\ fresh h h' (flat_map (fun o => writable (snd o)) os) /\ forall o, In o os -> fst o = vs.
Proof.
  induction cbs as [|c cbs IH]; intros h es vs Hc HG HV; cbn [call9].
  - exists h, []. split; auto. split; [apply fresh_refl|intros o []].
  - destruct (params_harmless es (fms c) h vs Hc (HG c (or_introl eq_refl)) HV) as (h1 & l & Hp & HS & [F1 F2 F3]). unfold call_callback9. rewrite Hp. cbn [bind]. rewrite HS. cbn [bind].
    destruct (put_all_unchanged (writes9 c) h l 0 vs h1 F1) as [HU HL]; [intros a Ha; apply F3 in Ha; lia|].
    assert (fresh h (put_all 0 (writes9 c) h1 l vs) (writable l)) as F by (split; rewrite ?HL; auto).
    destruct (IH (put_all 0 (writes9 c) h1 l vs) es vs) as (h2 & os & -> & F' & S); auto.
    { intros c' Hc'. apply HG. now right. }
    { clear -HV F. destruct F as [F _ _]. revert F. generalize (put_all 0 (writes9 c) h1 l vs). intros hh F. induction HV; constructor; auto. }
    cbn [bind]. eexists _, _. split; [reflexivity|]. cbn [flat_map snd]. split; [eapply fresh_app; eauto|]. intros o [<-|Ho]; auto.
Qed.

(** ** States *)
Record Inv (s : state) : Prop := mkInv {
  iv_const : forall e, In e (kept s) -> const e = true;
  iv_msg : forall e, In e (kept s) -> msg e < length (mem s);
  iv_grant : forall a, In a (granted s) -> a < length (mem s) /\ forall e, In e (kept s) -> msg e <> a }.
Lemma init_inv : Inv init.
Proof. split; intros ? []. Qed.

Lemma received_same (x : node) : forall (e e' : event), In e' (received e x) -> msg e' = msg e /\ (const e = true -> const e' = true) /\ (need e = true -> need e' = true).
Proof.
  induction x as [c|l IH] using (@node_ind' V); intros e e' H; cbn in H; [destruct H|]. destruct H as [<-|H]; auto. apply in_flat_map in H as (x & Hx & H).
  rewrite Forall_forall in IH. destruct (IH x Hx _ _ H) as (A & B & C). cbn in *. repeat split; auto. intros N. apply C. rewrite N. apply orb_true_r.
Qed.
Lemma all_kept_spec (s : state) ks es : all_kept s ks = Ok es -> Forall2 (fun k e => nth_error (kept s) k = Some e) ks es.
Proof.
  revert es. induction ks as [|k ks IH]; intros es H; cbn in H; [injection H as <-; constructor|]. unfold nth_kept in H. destruct (nth_error (kept s) k) eqn:E; [|discriminate]. cbn in H.
  destruct (all_kept s ks) as [l|]; [|discriminate]. cbn in H. injection H as <-. constructor; auto.
Qed.
Lemma inv_read (s : state) k e : Inv s -> nth_error (kept s) k = Some e -> exists v, nth_error (mem s) (msg e) = Some v.
Proof. intros I H. apply nth_error_In in H. apply iv_msg in H; auto. destruct (nth_error (mem s) (msg e)) eqn:E; eauto. apply nth_error_None in E. lia. Qed.
Lemma inv_reads (s : state) ks es : Inv s -> Forall2 (fun k e => nth_error (kept s) k = Some e) ks es -> exists vs, Forall2 (fun e v => nth_error (mem s) (msg e) = Some v) es vs.
Proof.
  intros I. induction 1 as [|k e ks es H _ IH]; [exists []; constructor|]. destruct IH as (vs & IH). destruct (inv_read s k e I H) as (v & Hv). exists (v :: vs). now constructor.
Qed.

(** What one harmless step does *)
Record steady (s s' : state) : Prop := mkSteady {
  st_kept : exists more, kept s' = kept s ++ more /\ forall e, In e more -> msg e < length (mem s) -> exists e0, In e0 (kept s) /\ msg e = msg e0;
  st_read : forall e, In e (kept s) -> nth_error (mem s') (msg e) = nth_error (mem s) (msg e);
  st_inv : Inv s' }.
Lemma fresh_steady (s : state) h' more w : Inv s -> fresh (mem s) h' w -> (forall e, In e more -> const e = true /\ exists e0, In e0 (kept s) /\ msg e = msg e0) ->
  steady s (mkState h' (kept s ++ more) (granted s ++ w)).
Proof.
  intros [I1 I2 I3] [F1 F2 F3] HM. split; cbn.
  - exists more. split; auto. intros e He _. now apply HM.
  - intros e He. destruct (nth_error (mem s) (msg e)) as [v|] eqn:E; [now apply F1|]. apply nth_error_None in E. specialize (I2 e He). lia.
  - assert (HB : forall e, In e (kept s ++ more) -> msg e < length (mem s)).
    { intros e He. apply in_app_or in He as [He|He]; auto. destruct (HM e He) as (_ & e0 & H0 & ->). auto. }
    split; cbn.
    + intros e He. apply in_app_or in He as [He|He]; auto. now apply HM.
    + intros e He. apply HB in He. lia.
    + intros a Ha. apply in_app_or in Ha as [Ha|Ha].
      * destruct (I3 a Ha) as [A B]. split; [lia|]. intros e He. apply in_app_or in He as [He|He]; auto. destruct (HM e He) as (_ & e0 & H0 & ->). auto.
      * apply F3 in Ha. split; [lia|]. intros e He. apply HB in He. lia.
Qed.
Lemma step_steady (s s' : state) o : Inv s -> careful s [o] -> step s o = Ok s' -> steady s s'.
Proof.
  intros I [G _] H. destruct o as [v t nc|k cbs|ks cbs|j v]; cbn [step] in H.
  - injection H as <-. destruct I as [I1 I2 I3]. split; cbn.
    + exists [mkEvent true (length (mem s)) None t nc]. split; auto. intros e [<-|[]] L. cbn in L. lia.
    + intros e He. apply nth_error_app1. auto.
    + split; cbn.
      * intros e He. apply in_app_or in He as [He|[<-|[]]]; auto.
      * intros e He. rewrite app_length. cbn. apply in_app_or in He as [He|[<-|[]]]; cbn; [apply I2 in He|]; lia.
      * intros a Ha. destruct (I3 a Ha) as [A B]. rewrite app_length. cbn. split; [lia|]. intros e He. apply in_app_or in He as [He|[<-|[]]]; auto. cbn. lia.
  - unfold nth_kept in H. destruct (nth_error (kept s) k) as [e|] eqn:E; [|discriminate]. cbn [bind] in H. destruct (inv_read s k e I E) as (v & Hv).
    pose proof (nth_error_In _ _ E) as He. destruct (call_node_harmless (Filter cbs) (mem s) e v (iv_const _ I _ He) Hv (G e eq_refl)) as (h' & os & Ec & F & _).
    unfold signal in H. rewrite Ec in H. cbn [bind] in H. injection H as <-. apply fresh_steady; auto. intros e' He'. apply in_flat_map in He' as (x & _ & Hr).
    apply received_same in Hr as (A & B & _). cbn in A, B. split; auto. eauto.
  - destruct (all_kept s ks) as [es|] eqn:E; [|discriminate]. cbn [bind] in H. apply all_kept_spec in E. destruct (inv_reads s ks es I E) as (vs & HV).
    assert (forall e, In e es -> In e (kept s)) as Hin.
    { clear -E. induction E as [|k e ks es H _ IH]; intros e' []; subst; auto. eapply nth_error_In; eauto. }
    destruct (call9_harmless (1 <? length cbs) cbs (mem s) es vs) as (h' & os & Ec & F & _); auto. { intros e He. apply (iv_const _ I). auto. }
    unfold signal9 in H. rewrite Ec in H. cbn [bind] in H. injection H as <-. pose proof (fresh_steady s h' [] _ I F) as X. rewrite app_nil_r in X. apply X. intros e [].
  - destruct (nth_error (granted s) j) as [a|] eqn:E; [|discriminate]. injection H as <-. apply nth_error_In in E. destruct I as [I1 I2 I3]. destruct (I3 a E) as [A B]. split; cbn.
    + exists []. rewrite app_nil_r. split; auto. intros e [].
    + intros e He. unfold write. apply nth_error_upd_neq. intros X. apply (B e He). auto.
    + split; cbn; auto; unfold write; intros; rewrite upd_length; auto.
Qed.
Lemma careful_tail (s s' : state) o h : careful s (o :: h) -> step s o = Ok s' -> careful s [o] /\ careful s' h.
Proof. intros [A B] H. split; [split; auto; cbn; auto|auto]. Qed.
Lemma run_steady h : forall (s s' : state), Inv s -> careful s h -> run s h = Ok s' ->
  Inv s' /\ (exists more, kept s' = kept s ++ more) /\ forall e, In e (kept s) -> nth_error (mem s') (msg e) = nth_error (mem s) (msg e).
Proof.
  induction h as [|o h IH]; intros s s' I C H; cbn [run] in H.
  - injection H as <-. split; auto. split; auto. exists []. now rewrite app_nil_r.
  - destruct (step s o) as [s1|] eqn:E; [|discriminate]. cbn in H. destruct (careful_tail _ _ _ _ C E) as [C1 C2]. destruct (step_steady _ _ _ I C1 E) as [(m1 & K1 & _) R1 I1].
    destruct (IH _ _ I1 C2 H) as (I2 & (m2 & K2) & R2). split; auto. split; [exists (m1 ++ m2); now rewrite K2, K1, app_assoc|].
    intros e He. rewrite R2; [apply R1; auto|]. rewrite K1. apply in_or_app; auto.
Qed.
Lemma step_total (s : state) o : Inv s -> careful s [o] -> possible s o -> exists s', step s o = Ok s'.
Proof.
  intros I [G _] P. destruct o as [v t nc|k cbs|ks cbs|j v]; cbn [step].
  - eauto.
  - cbn in P. apply nth_error_Some in P. unfold nth_kept. destruct (nth_error (kept s) k) as [e|] eqn:E; [|congruence]. cbn [bind]. destruct (inv_read s k e I E) as (v & Hv).
    destruct (call_node_harmless (Filter cbs) (mem s) e v (iv_const _ I _ (nth_error_In _ _ E)) Hv (G e eq_refl)) as (h' & os & Ec & _). unfold signal. rewrite Ec. cbn. eauto.
  - destruct P as [P1 P2]. assert (exists es, all_kept s ks = Ok es) as (es & E).
    { clear -P1. induction ks as [|k ks IH]; cbn; eauto. unfold nth_kept. assert (k < length (kept s)) as Hk by (apply P1; now left). apply nth_error_Some in Hk. destruct (nth_error (kept s) k); [|congruence]. cbn.
      destruct IH as (es & ->); [intros k' Hk'; apply P1; now right|]. cbn. eauto. }
    rewrite E. cbn [bind]. apply all_kept_spec in E. destruct (inv_reads s ks es I E) as (vs & HV).
    destruct (call9_harmless (1 <? length cbs) cbs (mem s) es vs) as (h' & os & Ec & _); auto.
    { intros e He. apply (iv_const _ I). clear -E He. induction E as [|k e' ks es H _ IH]; destruct He; subst; auto. eapply nth_error_In; eauto. }
    unfold signal9. rewrite Ec. cbn. eauto.
  - cbn in P. apply nth_error_Some in P. destruct (nth_error (granted s) j); [eauto|congruence].
Qed.

(** Events that all demand copies *)
Definition copying (s : state) : Prop := forall e, In e (kept s) -> need e = true.
Lemma copying_careful h : forall (s : state), copying s -> all_demand_copies h ->
  (forall h1 o h2 s1, h = h1 ++ o :: h2 -> run s h1 = Ok s1 -> possible s1 o) -> careful s h.
Proof.
  induction h as [|o h IH]; intros s K A P; [exact I|]. split.
  - destruct o as [v t nc|k cbs|ks cbs|j v]; auto.
    + intros e He. left. apply K. eapply nth_error_In; eauto.
    + intros es HF c Hc. pose proof (P [] (Hand9 ks cbs) h s eq_refl eq_refl) as [_ P2]. apply P2 in Hc as L.
      assert (length (fms c) = length es) as L' by (rewrite L; clear -HF; induction HF; cbn; auto). clear -HF L' K.
      assert (forall e, In e es -> need e = true) as N by (clear -HF K; induction HF; intros e []; subst; auto; apply K; eapply nth_error_In; eauto).
      clear HF. revert L' N. generalize (fms c). induction es as [|e es IH]; intros [|f fs] L' N; try discriminate; constructor; [left; apply N; now left|]. apply IH; [now injection L'|]. intros; apply N; now right.
  - intros s' E. apply IH.
    + intros e He. destruct o as [v t nc|k cbs|ks cbs|j v]; cbn [step] in E.
      * injection E as <-. cbn in He. apply in_app_or in He as [He|[<-|[]]]; auto. cbn. apply (A v t nc). now left.
      * unfold nth_kept in E. destruct (nth_error (kept s) k) as [e0|] eqn:E0; [|discriminate]. cbn [bind] in E. destruct (signal (mem s) e0 cbs) as [[h' os]|]; [|discriminate]. cbn in E. injection E as <-.
        cbn in He. apply in_app_or in He as [He|He]; auto. apply in_flat_map in He as (x & _ & Hr). apply received_same in Hr as (_ & _ & B). apply B. cbn. rewrite (K e0 (nth_error_In _ _ E0)). apply orb_true_r.
      * destruct (all_kept s ks); [|discriminate]. cbn [bind] in E. destruct (signal9 _ _ _) as [[h' os]|]; [|discriminate]. cbn in E. injection E as <-. auto.
      * destruct (nth_error (granted s) j); [|discriminate]. injection E as <-. auto.
    + intros v t nc H. apply (A v t nc). now right.
    + intros h1 o' h2 s1 -> R. apply (P (o :: h1) o' h2 s1); auto. cbn. rewrite E. cbn. auto.
Qed.
End Proofs.
