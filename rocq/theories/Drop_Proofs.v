From Coq Require Import List Arith Bool Lia.
From Verif Require Import Base Event_Model Event_Spec Event_Proofs Drop_Model Drop_Spec.
Import ListNotations.

Section Proofs.
Context {V T : Type} (asserts : bool).
Notation heap := (heap V).
Notation event := (event T).
Notation tuple := (list (option event)).

(** messages that exist, whatever their contents *)
Definition valid (h : heap) (t : tuple) : Prop := forall e, In (Some e) t -> const e = true /\ msg e < length h.

Lemma present_valid h (t : tuple) (vs : list (option V)) : present h t vs -> valid h t.
Proof.
  induction 1 as [|o v t vs H _ IH]; intros e He; [destruct He|]. destruct He as [->|He].
  - destruct v; [|destruct H]. destruct H. split; auto. apply nth_error_Some. congruence.
  - auto.
Qed.
Lemma valid_grow (h h' : heap) t : length h <= length h' -> valid h t -> valid h' t.
Proof. intros H HV e He. destruct (HV e He). split; auto; lia. Qed.

Definition good_access (h : heap) (a : access V) : Prop :=
  match a with Private _ => True | ReadOnly a | Mutable a => a < length h end.
Definition good_param (h : heap) (p : dparam V) : Prop := match p with Given a => good_access h a | Null => True end.

Lemma read_ok (h : heap) a : a < length h -> exists v, read h a = Ok v.
Proof.
  intros H. unfold read. destruct (nth_error h a) eqn:E; eauto. apply nth_error_None in E. lia.
Qed.

Lemma param_ok (h : heap) (e : event) f : const e = true -> msg e < length h ->
  exists h' a, param h e f = Ok (h', a) /\ length h <= length h' /\ good_access h' a.
Proof.
  intros Hc Hm. destruct (read_ok h _ Hm) as (v & Hv).
  destruct f; cbn [param]; try (rewrite Hv; cbn); try (do 2 eexists; split; [reflexivity|]; cbn; auto; fail).
  all: unfold copy_event, get_message; rewrite Hc; cbn [orb bind const need msg copied];
    destruct (need e); cbn [negb orb bind copied msg]; [rewrite Hv; cbn [bind]|];
    (do 2 eexists; split; [reflexivity|]); cbn [good_access]; rewrite ?app_length; cbn; lia.
Qed.

Lemma good_grow (h h' : heap) p : length h <= length h' -> good_param h p -> good_param h' p.
Proof. destruct p as [[|a|a]|]; cbn; lia. Qed.

Lemma dparams_ok fs : forall (h : heap) (t : tuple), valid h t ->
  (forall i f, nth_error t i = Some None -> nth_error fs i = Some f -> nullable f = true) ->
  exists h' l, dparams asserts h t fs = Ok (h', l) /\ length h <= length h' /\ Forall (good_param h') l.
Proof.
  induction fs as [|f fs IH]; intros h [|o t] HV HN; cbn [dparams]; try (exists h, []; auto; fail).
  assert (HN' : forall i g, nth_error t i = Some None -> nth_error fs i = Some g -> nullable g = true)
    by (intros i g H1 H2; apply (HN (S i) g); auto).
  assert (HV' : valid h t) by (intros e He; apply HV; cbn; auto).
  destruct o as [e|]; cbn [dparam_of].
  - destruct (HV e ltac:(cbn; auto)) as [Hc Hm]. destruct (param_ok h e f Hc Hm) as (h1 & a & Hp & Hl & Hg).
    rewrite Hp. cbn [bind]. destruct (IH h1 t (valid_grow _ _ _ Hl HV') HN') as (h2 & l & H2 & Hl2 & HG2).
    rewrite H2. cbn [bind]. exists h2, (Given a :: l). split; auto. split; [lia|]. constructor; auto.
    now apply (good_grow h1).
  - pose proof (HN 0 f eq_refl eq_refl) as Hf. destruct (IH h t HV' HN') as (h2 & l & H2 & Hl2 & HG2).
    destruct f; try discriminate Hf; cbn [bind]; rewrite H2; cbn [bind]; exists h2, (Null :: l); repeat split; auto; constructor; cbn; auto.
Qed.

Lemma dsee_ok l : forall (h : heap), Forall (good_param h) l -> exists vs, dsee h l = Ok vs.
Proof.
  induction l as [|p l IH]; intros h HF; cbn; eauto. inversion HF as [|? ? H1 H2]; subst.
  destruct (IH h H2) as (vs & Hvs). rewrite Hvs. destruct p as [a|]; cbn; eauto.
  destruct a as [v|a|a]; cbn in *; eauto; destruct (read_ok h a H1) as (v & ->); cbn; eauto.
Qed.

Lemma dput_length w l : forall k vs (h : heap), length (dput k w h l vs) = length h.
Proof.
  induction l as [|p l IH]; intros k vs h; cbn; auto. destruct p as [a|], vs as [|[v|] vs]; auto; rewrite IH; auto.
  destruct a; cbn; auto. apply upd_length.
Qed.

Lemma dparams_fails fs : forall (h : heap) (t : tuple) i f,
  nth_error t i = Some None -> nth_error fs i = Some f -> nullable f = false ->
  exists e, dparams asserts h t fs = Err e.
Proof.
  induction fs as [|g fs IH]; intros h t i f Ht Hf Hn; [destruct i; discriminate|].
  destruct t as [|o t]; [destruct i; discriminate|]. cbn [dparams].
  destruct (dparam_of asserts h o g) as [[h1 a]|e] eqn:E; cbn [bind]; eauto.
  destruct i as [|i]; cbn in Ht, Hf.
  - injection Ht as ->. injection Hf as ->. destruct f; discriminate.
  - destruct (IH h1 t i f Ht Hf Hn) as (e & ->). cbn. eauto.
Qed.

Lemma dcall_ok (h : heap) (t : tuple) c : valid h t -> tolerates t c ->
  exists h' vs, dcall asserts h t c = Ok (h', vs) /\ length h <= length h'.
Proof.
  intros HV HT. unfold dcall. destruct (dparams_ok (fms c) h t HV HT) as (h1 & l & -> & Hl & HG). cbn [bind].
  destruct (dsee_ok l h1 HG) as (vs & ->). cbn [bind]. do 2 eexists. split; [reflexivity|]. now rewrite dput_length.
Qed.

Lemma call_ok cbs : forall (h : heap) (t : tuple), valid h t -> (forall c, In c cbs -> tolerates t c) ->
  exists h' os, call_drop_signal asserts h t cbs = Ok (h', os).
Proof.
  induction cbs as [|c cbs IH]; intros h t HV HT; cbn; eauto.
  destruct (dcall_ok h t c HV (HT c (or_introl eq_refl))) as (h1 & vs & -> & Hl). cbn [bind].
  destruct (IH h1 t (valid_grow _ _ _ Hl HV) ltac:(intros; apply HT; cbn; auto)) as (h2 & os & ->). cbn. eauto.
Qed.

Lemma call_fails cbs c : forall (h : heap) (t : tuple) i f, In c cbs ->
  nth_error t i = Some None -> nth_error (fms c) i = Some f -> nullable f = false ->
  exists e, call_drop_signal asserts h t cbs = Err e.
Proof.
  induction cbs as [|d cbs IH]; intros h t i f Hc Ht Hf Hn; [destruct Hc|]. cbn.
  destruct (dcall asserts h t d) as [[h1 o]|e] eqn:E; cbn [bind]; eauto.
  destruct Hc as [->|Hc].
  - unfold dcall in E. destruct (dparams_fails (fms c) h t i f Ht Hf Hn) as (e & Ee). rewrite Ee in E. discriminate.
  - destruct (IH h1 t i f Hc Ht Hf Hn) as (e & ->). cbn. eauto.
Qed.

(** which errors *)
Definition null_use (e : err) : Prop := e = UB \/ e = if asserts then AssertFailed else Thrown.
Lemma dparams_err fs : forall (h : heap) (t : tuple) e, valid h t -> dparams asserts h t fs = Err e -> null_use e.
Proof.
  induction fs as [|f fs IH]; intros h [|o t] e HV H; cbn in H; try discriminate.
  assert (HV' : valid h t) by (intros x Hx; apply HV; cbn; auto).
  destruct o as [x|]; cbn [dparam_of] in H.
  - destruct (HV x ltac:(cbn; auto)) as [Hc Hm]. destruct (param_ok h x f Hc Hm) as (h1 & a & Hp & Hl & Hg).
    rewrite Hp in H. cbn [bind] in H. destruct (dparams asserts h1 t fs) as [[h2 l]|e'] eqn:E; cbn in H; [discriminate|].
    injection H as <-. apply (IH h1 t); auto. eapply valid_grow; eauto.
  - destruct (dparams asserts h t fs) as [[h2 l]|e'] eqn:E;
      destruct f; cbn in H; rewrite ?E in H; cbn in H; try discriminate H; injection H as <-; unfold null_use; auto;
      apply (IH h t); auto.
Qed.
Lemma dparams_good fs : forall (h : heap) (t : tuple) h' l, valid h t -> dparams asserts h t fs = Ok (h', l) ->
  length h <= length h' /\ Forall (good_param h') l.
Proof.
  induction fs as [|f fs IH]; intros h [|o t] h3 l' HV E; cbn in E; try (injection E as <- <-; auto; fail).
  assert (HV' : valid h t) by (intros x Hx; apply HV; cbn; auto).
  destruct o as [x|].
  - cbn [dparam_of] in E. destruct (HV x ltac:(cbn; auto)) as [Hc Hm]. destruct (param_ok h x f Hc Hm) as (h1 & a & Hp & Hl & Hg).
    rewrite Hp in E. cbn [bind] in E. destruct (dparams asserts h1 t fs) as [[h2 l2]|] eqn:E2; [|discriminate]. cbn in E. injection E as <- <-.
    apply IH in E2 as [E2 E3]; [|eapply valid_grow; eauto]. split; [lia|]. constructor; auto. now apply (good_grow h1).
  - destruct (dparams asserts h t fs) as [[h2 l2]|] eqn:E2; destruct f; cbn in E; rewrite ?E2 in E; cbn in E; try discriminate E;
      injection E as <- <-; apply IH in E2 as [E2 E3]; auto; split; auto; constructor; cbn; auto.
Qed.

Lemma call_err cbs : forall (h : heap) (t : tuple) e, valid h t ->
  call_drop_signal asserts h t cbs = Err e -> null_use e.
Proof.
  induction cbs as [|c cbs IH]; intros h t e HV H; cbn in H; [discriminate|]. unfold dcall in H.
  destruct (dparams asserts h t (fms c)) as [[h1 l]|e'] eqn:E; cbn [bind] in H.
  - destruct (dparams_good _ _ _ _ _ HV E) as [Hl HG]. destruct (dsee_ok l h1 HG) as (vs & Hvs). rewrite Hvs in H. cbn [bind] in H.
    destruct (call_drop_signal asserts (dput 0 (writes9 c) h1 l vs) t cbs) as [[h2 os]|e'] eqn:E2; cbn in H; [discriminate|]. injection H as <-.
    apply (IH _ t) in E2; auto. apply (valid_grow h); auto. now rewrite dput_length.
  - injection H as <-. eapply dparams_err; eauto.
Qed.

(** what is seen *)
Definition dwritable (l : list (dparam V)) : list nat :=
  flat_map (fun p => match p with Given (Mutable a) => [a] | _ => [] end) l.

Lemma present_unchanged (h h' : heap) (t : tuple) (vs : list (option V)) : unchanged h h' -> present h t vs -> present h' t vs.
Proof.
  intros HU. induction 1 as [|o v t vs H _ IH]; constructor; auto. destruct o, v; auto. destruct H; split; auto.
Qed.

Lemma param_seen (h : heap) (e : event) f v : const e = true -> need e = true -> nth_error h (msg e) = Some v ->
  exists h' a, param h e f = Ok (h', a) /\ unchanged h h' /\ length h <= length h' /\ see h' a = Ok v /\
    good_access h' a /\ (forall a', a = Mutable a' -> length h <= a').
Proof.
  intros Hc Hn Hv. assert (Hr : read h (msg e) = Ok v) by (unfold read; now rewrite Hv).
  assert (Hlt : msg e < length h) by (apply nth_error_Some; congruence).
  destruct f; cbn [param]; try (rewrite Hr; cbn [bind]);
    try (do 2 eexists; split; [reflexivity|]; split; [apply unchanged_refl|]; split; [lia|]; cbn; rewrite ?Hr; split; auto; split; auto; intros; discriminate).
  all: unfold copy_event, get_message; rewrite Hc, Hn; cbn [orb negb bind const need msg copied]; rewrite Hr; cbn [bind];
    (do 2 eexists; split; [reflexivity|]); (split; [apply unchanged_app|]); rewrite app_length; cbn; (split; [lia|]);
    unfold read; rewrite nth_error_app2, Nat.sub_diag by lia; cbn; (split; [reflexivity|]); (split; [rewrite ?app_length; cbn; lia|]); intros a' [= <-]; lia.
Qed.

Lemma dsee_unchanged (h h' : heap) l : unchanged h h' -> forall vs, dsee h l = Ok vs -> dsee h' l = Ok vs.
Proof.
  intros HU. induction l as [|p l IH]; intros vs H; cbn in *; auto.
  destruct p as [a|]; cbn in *.
  - destruct (see h a) as [v|] eqn:E; [|discriminate]. cbn in H. destruct (dsee h l) as [ws|]; [|discriminate].
    rewrite (IH ws eq_refl). assert (see h' a = Ok v) as ->; auto.
    destruct a as [w|a|a]; cbn in *; auto; unfold read in *; destruct (nth_error h a) as [w|] eqn:Ea; try discriminate; now rewrite (HU a w Ea).
  - destruct (dsee h l) as [ws|]; [|discriminate]. now rewrite (IH ws eq_refl).
Qed.

Definition copying (t : tuple) : Prop := forall e, In (Some e) t -> need e = true.

Lemma dparams_seen fs : forall (h : heap) (t : tuple) (vs : list (option V)), present h t vs -> copying t -> length fs = length t ->
  (forall i f, nth_error t i = Some None -> nth_error fs i = Some f -> nullable f = true) ->
  exists h' l, dparams asserts h t fs = Ok (h', l) /\ unchanged h h' /\ length h <= length h' /\ dsee h' l = Ok vs /\
    (forall a, In a (dwritable l) -> length h <= a).
Proof.
  induction fs as [|f fs IH]; intros h [|o t] vs HP HC HL HN; try discriminate HL; inversion HP as [|? v ? vs' Hov HP']; subst; cbn [dparams].
  - exists h, []. repeat split; auto using unchanged_refl. intros a [].
  - assert (HN' : forall i g, nth_error t i = Some None -> nth_error fs i = Some g -> nullable g = true)
      by (intros i g H1 H2; apply (HN (S i) g); auto).
    assert (HC' : copying t) by (intros e He; apply HC; cbn; auto). injection HL as HL.
    destruct o as [e|]; destruct v as [v|]; try contradiction; cbn [dparam_of].
    + destruct Hov as [Hc Hv]. destruct (param_seen h e f v Hc (HC e ltac:(cbn; auto)) Hv) as (h1 & a & Hp & HU1 & Hl1 & Hs & Hg & Hm). rewrite Hp. cbn [bind].
      destruct (IH h1 t vs' (present_unchanged _ _ _ _ HU1 HP') HC' HL HN') as (h2 & l & H2 & HU2 & Hl2 & Hs2 & Hm2).
      rewrite H2. cbn [bind]. exists h2, (Given a :: l). split; auto. split; [eapply unchanged_trans; eauto|]. split; [lia|]. split.
      * cbn. assert (see h2 a = Ok v) as ->; [|now rewrite Hs2].
        destruct a as [w|a|a]; cbn in *; auto; unfold read in *; destruct (nth_error h1 a) as [w|] eqn:Ea; try discriminate; now rewrite (HU2 a w Ea).
      * intros b Hb. unfold dwritable in Hb. cbn in Hb. apply in_app_or in Hb as [Hb|Hb].
        -- destruct a as [w|a|a]; cbn in Hb; try destruct Hb; try contradiction. subst. auto.
        -- apply Hm2 in Hb. lia.
    + pose proof (HN 0 f eq_refl eq_refl) as Hf. destruct (IH h t vs' HP' HC' HL HN') as (h2 & l & H2 & HU2 & Hl2 & Hs2 & Hm2).
      assert (@dparam_of V T asserts h None f = Ok (h, Null)) as Ed by (destruct f; try discriminate Hf; reflexivity).
      cbn [dparam_of] in Ed. rewrite Ed. cbn [bind]. rewrite H2. cbn [bind]. exists h2, (Null :: l).
      repeat split; auto. cbn. now rewrite Hs2.
Qed.

Lemma dput_unchanged w (h : heap) l : forall k vs h0, unchanged h h0 -> (forall a, In a (dwritable l) -> length h <= a) ->
  unchanged h (dput k w h0 l vs).
Proof.
  induction l as [|p l IH]; intros k vs h0 HU Hl; cbn; auto.
  assert (Hl' : forall a, In a (dwritable l) -> length h <= a) by (intros a Ha; apply Hl; unfold dwritable; cbn; apply in_or_app; auto).
  destruct p as [a|], vs as [|[v|] vs]; auto; apply IH; auto.
  destruct a as [x|a|a]; cbn; auto. apply unchanged_upd; auto. apply Hl. cbn. auto.
Qed.

Lemma call_seen cbs : forall (h : heap) (t : tuple) (vs : list (option V)), present h t vs -> copying t ->
  (forall c, In c cbs -> length (fms c) = length t /\ tolerates t c) ->
  exists h' os, call_drop_signal asserts h t cbs = Ok (h', os) /\ length os = length cbs /\ (forall o, In o os -> o = vs) /\ unchanged h h'.
Proof.
  induction cbs as [|c cbs IH]; intros h t vs HP HC HT; cbn.
  - exists h, []. repeat split; auto using unchanged_refl. intros o [].
  - destruct (HT c (or_introl eq_refl)) as [HL Ht].
    destruct (dparams_seen (fms c) h t vs HP HC HL Ht) as (h1 & l & H1 & HU & Hl & Hs & Hm).
    unfold dcall. rewrite H1. cbn [bind]. rewrite Hs. cbn [bind].
    pose proof (dput_unchanged (writes9 c) h l 0 vs h1 HU Hm) as HU'.
    destruct (IH _ t vs (present_unchanged _ _ _ _ HU' HP) HC ltac:(intros; apply HT; cbn; auto)) as (h2 & os & H2 & HL2 & Hos & HU2).
    rewrite H2. cbn [bind]. exists h2, (vs :: os). split; auto. split; [cbn; lia|]. split.
    + intros o [<-|Ho]; auto.
    + eapply unchanged_trans; eauto.
Qed.
End Proofs.
