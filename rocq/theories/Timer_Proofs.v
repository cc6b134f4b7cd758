(** Lemmas for C123. *)
From Coq Require Import List Arith Lia Bool.
From Verif Require Import Base Trace Timer_Model Timer_Spec.
Import ListNotations.

Lemma nth_upd {A} (l : list A) e x j : nth_error (upd e x l) j =
  if Nat.eqb j e then match nth_error l e with Some _ => Some x | None => None end else nth_error l j.
Proof.
  revert e j. induction l as [|y l IH]; intros e j.
  - destruct e, j; cbn; auto. now destruct (Nat.eqb j e).
  - destruct e as [|e], j as [|j]; cbn; auto.
Qed.

Definition ph (s : state) (e : nat) := nth_error (execs s) e.

Lemma ph_goto s e p j q : ph (goto s e p) j = Some q -> (j = e /\ q = p) \/ (j <> e /\ ph s j = Some q).
Proof.
  unfold ph, goto. cbn. rewrite nth_upd. destruct (Nat.eqb_spec j e) as [->|Hj]; [|auto].
  destruct (nth_error (execs s) e); [|discriminate]. intros [= <-]. auto.
Qed.

Lemma refers_exists s t : existsb (refers t) (execs s) = true <-> referred t s.
Proof.
  rewrite existsb_exists. split.
  - intros (p & Hin & Hp). apply In_nth_error in Hin as (e & He). exists e. destruct p; cbn in Hp; [discriminate| |];
      apply Nat.eqb_eq in Hp as ->; auto.
  - intros (e & [He|He]); apply nth_error_In in He; eexists; (split; [exact He|cbn; apply Nat.eqb_refl]).
Qed.

Lemma run_app s h1 h2 : run s (h1 ++ h2) = bind (run s h1) (fun s' => run s' h2).
Proof. revert s. induction h1 as [|v h1 IH]; intros s; cbn; auto. destruct (step s v); cbn; auto. Qed.

(** ** while the filter is in use *)
Record Use (s : state) : Prop := mkUse {
  u_alive : alive s = true;
  u_canc : cancelled s = [];
  u_exist : forall e t, (ph s e = Some (Holding t) \/ ph s e = Some (Running t)) -> t < count s;
  u_cur : forall t, cur s = Some t -> t < count s }.

Lemma use_step s v : Use s -> v <> Part -> exists s', step s v = Ok s' /\ Use s' /\ todo s' = todo s /\
  length (execs s') = length (execs s) /\ count s <= count s' /\ (v <> Setup -> cur s' = cur s /\ count s' = count s).
Proof.
  intros [U1 U2 U3 U4] Hv.
  assert (G : forall e p, (forall t, p = Holding t \/ p = Running t -> t < count s) -> Use (goto s e p)).
  { intros e p Hp. split; auto. intros e' t [H|H]; apply ph_goto in H as [(-> & H)|(_ & H)]; cbn.
    - apply Hp. auto.
    - eapply U3; eauto.
    - apply Hp. auto.
    - eapply U3; eauto. }
  assert (L : forall e p, length (execs (goto s e p)) = length (execs s)) by (intros; cbn; apply upd_length).
  assert (U : Use s) by (split; auto).
  destruct v as [| |e t|e|e|e]; cbn [step]; unfold touch; rewrite ?U1; try congruence.
  - eexists. split; [reflexivity|]. split; [|cbn; do 3 (split; auto); congruence]. split; auto; cbn.
    + intros e t H. specialize (U3 e t H). lia.
    + intros t [= <-]. lia.
  - destruct (nth_error (execs s) e) as [[|u|u]|]; try (exists s; auto 8; fail).
    destruct (exists_timer s t) eqn:Ht; [|exists s; auto 8].
    eexists. split; [reflexivity|]. split; [|cbn; rewrite upd_length; auto 8]. apply G. intros t' [[= <-]|H]; [|discriminate].
    unfold exists_timer in Ht. apply orb_prop in Ht as [Ht|Ht].
    + destruct (cur s) as [u|]; [|discriminate]. apply Nat.eqb_eq in Ht as ->. auto.
    + apply refers_exists in Ht as (e' & Ht). eapply U3; eauto.
  - destruct (nth_error (execs s) e) as [[|u|u]|] eqn:He; try (exists s; auto 8; fail).
    rewrite U2. cbn [existsb]. eexists. split; [reflexivity|]. split; [|cbn; rewrite upd_length; auto 8]. apply G.
    intros t' [H|[= <-]]; [discriminate|]. eapply U3; left; exact He.
  - destruct (nth_error (execs s) e) as [[|u|u]|] eqn:He; try (exists s; auto 8; fail).
    eexists. split; [reflexivity|]. split; [|cbn; rewrite upd_length; auto 8]. apply G. intros t' [H|H]; discriminate.
  - destruct (nth_error (execs s) e) as [[|u|u]|] eqn:He; try (exists s; auto 8; fail).
    eexists. split; [reflexivity|]. split; [|cbn; rewrite upd_length; auto 8]. apply G. intros t' [H|H]; discriminate.
Qed.

Lemma use_run h : forall s, Use s -> ~ In Part h -> exists s', run s h = Ok s' /\ Use s' /\ todo s' = todo s /\
  length (execs s') = length (execs s) /\ (~ In Setup h -> cur s' = cur s /\ count s' = count s).
Proof.
  induction h as [|v h IH]; intros s HU HP; cbn.
  - exists s. auto 8.
  - destruct (use_step s v HU) as (s1 & -> & HU1 & HT & HL & _ & HC); [intros ->; apply HP; now left|]. cbn.
    destruct (IH s1 HU1) as (s2 & -> & HU2 & HT2 & HL2 & HC2); [intros H; apply HP; now right|].
    exists s2. do 2 (split; auto). split; [congruence|]. split; [congruence|]. intros HS.
    destruct HC as [C1 C2]; [intros ->; apply HS; now left|]. destruct HC2 as [C3 C4]; [intros H; apply HS; now right|].
    split; congruence.
Qed.

Lemma repeat_nth m e p : nth_error (repeat Away m) e = Some p -> p = Away.
Proof. intros H. apply nth_error_In in H. now apply repeat_spec in H. Qed.

Lemma sequencer_use m : Use (sequencer m).
Proof. split; auto; cbn; [intros e t [H|H]; apply repeat_nth in H; discriminate|intros t [= <-]; lia]. Qed.
Lemma aligner_use m : Use (aligner m).
Proof. split; auto; cbn; [intros e t [H|H]; apply repeat_nth in H; discriminate|discriminate]. Qed.

(** ** after the destruction has begun *)
(** Every timer there is, is cancelled and nobody runs its callback. *)
Record Quietened (s : state) : Prop := mkQuiet {
  q_canc : forall e t, ph s e = Some (Holding t) -> In t (cancelled s);
  q_cur : forall t, cur s = Some t -> In t (cancelled s);
  q_run : forall e t, ph s e <> Some (Running t) }.

Lemma quiet_step s v : Quietened s -> v <> Setup -> exists s', step s v = Ok s' /\ Quietened s'.
Proof.
  intros [Q1 Q2 Q3] Hv.
  assert (G : forall e, Quietened (goto s e Away)).
  { intros e. split.
    - intros e' t H. apply ph_goto in H as [(_ & H)|(_ & H)]; [discriminate|]. exact (Q1 _ _ H).
    - exact Q2.
    - intros e' t H. apply ph_goto in H as [(_ & H)|(_ & H)]; [discriminate|]. exact (Q3 _ _ H). }
  assert (Q : Quietened s) by (split; auto).
  destruct v as [| |e t|e|e|e]; cbn [step]; try congruence.
  - destruct (todo s) as [|[] l]; eexists; (split; [reflexivity|]); auto; split; unfold ph in *; cbn; auto.
    + intros e t H. specialize (Q1 e t H). destruct (cur s); cbn; auto.
    + intros t H. specialize (Q2 t H). rewrite H. cbn. auto.
    + discriminate.
  - destruct (nth_error (execs s) e) as [[|u|u]|] eqn:He; eauto. destruct (exists_timer s t) eqn:Ht; [|eauto].
    eexists. split; [reflexivity|].
    assert (HC : In t (cancelled s)).
    { unfold exists_timer in Ht. apply orb_prop in Ht as [Ht|Ht].
      - destruct (cur s) as [u|] eqn:Hc; [|discriminate]. apply Nat.eqb_eq in Ht as ->. auto.
      - apply refers_exists in Ht as (e' & [Ht|Ht]); [exact (Q1 _ _ Ht)|destruct (Q3 _ _ Ht)]. }
    split.
    + intros e' t' H. apply ph_goto in H as [(_ & [= ->])|(_ & H)]; [auto|]. exact (Q1 _ _ H).
    + exact Q2.
    + intros e' t' H. apply ph_goto in H as [(_ & H)|(_ & H)]; [discriminate|]. exact (Q3 _ _ H).
  - destruct (nth_error (execs s) e) as [[|u|u]|] eqn:He; eauto.
    assert (HC : existsb (Nat.eqb u) (cancelled s) = true).
    { apply existsb_exists. exists u. split; [exact (Q1 _ _ He)|apply Nat.eqb_refl]. }
    rewrite HC. eauto.
  - destruct (nth_error (execs s) e) as [[|u|u]|] eqn:He; eauto. destruct (Q3 _ _ He).
  - destruct (nth_error (execs s) e) as [[|u|u]|] eqn:He; eauto.
Qed.

Lemma quiet_run h : forall s, Quietened s -> not_used h -> exists s', run s h = Ok s' /\ Quietened s'.
Proof.
  induction h as [|v h IH]; intros s HQ HN; cbn; eauto.
  destruct (quiet_step s v HQ) as (s1 & -> & HQ1); [intros ->; apply HN; now left|]. cbn.
  apply IH; auto. intros H. apply HN. now right.
Qed.

(** The destruction of a TimeSequencer *)
Lemma seq_phase h : forall s, Use s -> ~ In Part h -> ~ In Setup h -> (forall e t, ph s e = Some (Holding t) \/ ph s e = Some (Running t) -> cur s = Some t) ->
  forall s', run s h = Ok s' -> forall e t, ph s' e = Some (Holding t) \/ ph s' e = Some (Running t) -> cur s' = Some t.
Proof.
  intros s HU HP HS HC s' Hr e t H. destruct (use_run h s HU HP) as (s2 & Hr2 & HU2 & _ & _ & HC2).
  rewrite Hr in Hr2. injection Hr2 as <-. destruct (HC2 HS) as [C1 C2].
  rewrite C1. clear HU2 HC2 C1 C2. revert s HU HC Hr. induction h as [|v h IH]; intros s HU HC Hr; cbn in Hr; [injection Hr as <-; eauto|].
  destruct (use_step s v HU) as (s1 & Hs & HU1 & _ & _ & _ & Hc1); [intros ->; apply HP; now left|]. rewrite Hs in Hr. cbn in Hr.
  destruct Hc1 as [Hc1 _]; [intros ->; apply HS; now left|]. rewrite <- Hc1.
  apply IH; auto; [intros X; apply HP; now right|intros X; apply HS; now right|].
  clear IH Hr. intros e' t' H'. rewrite Hc1.
  assert (G : forall e0 p, (forall u, p = Holding u \/ p = Running u -> cur s = Some u) -> s1 = goto s e0 p -> cur s = Some t').
  { intros e0 p Hp ->. destruct H' as [H'|H']; apply ph_goto in H' as [(_ & <-)|(_ & H')]; eauto. }
  destruct v as [| |e0 t0|e0|e0|e0]; cbn [step] in Hs; unfold touch in Hs; rewrite ?(u_alive s HU) in Hs.
  - exfalso. apply HS. now left.
  - exfalso. apply HP. now left.
  - destruct (nth_error (execs s) e0) as [[|u|u]|] eqn:He; try (injection Hs as <-; eauto; fail).
    destruct (exists_timer s t0) eqn:Ht; injection Hs as Hs; [|subst s1; eauto].
    eapply G; [|symmetry; exact Hs]. intros u [[= <-]|X]; [|discriminate]. unfold exists_timer in Ht. apply orb_prop in Ht as [Ht|Ht].
    + destruct (cur s) as [u|]; [|discriminate]. apply Nat.eqb_eq in Ht as ->. auto.
    + apply refers_exists in Ht as (e2 & Ht). eauto.
  - destruct (nth_error (execs s) e0) as [[|u|u]|] eqn:He; try (injection Hs as <-; eauto; fail).
    rewrite (u_canc s HU) in Hs. cbn [existsb] in Hs. injection Hs as Hs. eapply G; [|symmetry; exact Hs].
    intros u' [X|[= <-]]; [discriminate|]. eapply HC. left. exact He.
  - destruct (nth_error (execs s) e0) as [[|u|u]|] eqn:He; try (injection Hs as <-; eauto; fail).
    injection Hs as Hs. eapply G; [|symmetry; exact Hs]. intros u' [X|X]; discriminate.
  - destruct (nth_error (execs s) e0) as [[|u|u]|] eqn:He; try (injection Hs as <-; eauto; fail).
    injection Hs as Hs. eapply G; [|symmetry; exact Hs]. intros u' [X|X]; discriminate.
Qed.

Lemma seq_safe_iff m h s : in_use false h -> run (sequencer m) h = Ok s -> may_fail s <-> somebody_runs s.
Proof.
  intros [HP HS] Hr. specialize (HS eq_refl). destruct (use_run h _ (sequencer_use m) HP) as (s0 & Hr0 & HU & HT & _ & HC).
  rewrite Hr in Hr0. injection Hr0 as <-. destruct (HC HS) as [C1 _]. cbn in C1, HT. unfold sequencer_dtor in HT. clear HC.
  assert (HH : forall e t, ph s e = Some (Holding t) \/ ph s e = Some (Running t) -> cur s = Some t).
  { apply (seq_phase h (sequencer m)); auto using sequencer_use. cbn. intros e t [H|H]; apply repeat_nth in H; discriminate. }
  split.
  - intros (h2 & HN & Hf). destruct (existsb (fun p => match p with Running _ => true | _ => false end) (execs s)) eqn:Hx.
    + apply existsb_exists in Hx as (p & Hin & Hp). destruct p as [| |t]; try discriminate.
      apply In_nth_error in Hin as (e & He). exists e, t. auto.
    + exfalso. cbn [run step] in Hf. rewrite HT in Hf. cbn [do_part bind] in Hf. rewrite C1 in Hf.
      match type of Hf with run ?x _ = _ => destruct (quiet_run h2 x) as (s' & Hs' & _); [|auto|congruence] end.
      split; unfold ph; cbn.
      * intros e t H. left. specialize (HH e t (or_introl H)). congruence.
      * intros t [= <-]. auto.
      * intros e t H. apply nth_error_In in H.
        assert (Y : existsb (fun p => match p with Running _ => true | _ => false end) (execs s) = true)
          by (apply existsb_exists; exists (Running t); auto).
        congruence.
  - intros (e & t & He). exists [Part; Finish e]. split; [intros [H|[H|[]]]; discriminate|].
    cbn [run step]. rewrite HT. cbn. now rewrite He.
Qed.

(** The destruction of an InputAligner *)
Record Nobody (s : state) : Prop := mkNobody { n_exec : forall e p, ph s e = Some p -> p = Away; n_cur : cur s = None }.

Lemma nobody_quiet s : Nobody s -> Quietened s.
Proof.
  intros [N1 N2]. split; [| rewrite N2; discriminate |]; intros e t H; apply N1 in H; discriminate.
Qed.

Lemma al_safe_iff m h s : in_use true h -> run (aligner m) h = Ok s -> may_fail s <-> somebody_refers s.
Proof.
  intros [HP _] Hr. destruct (use_run h _ (aligner_use m) HP) as (s0 & Hr0 & HU & HT & _ & _).
  rewrite Hr in Hr0. injection Hr0 as <-. cbn in HT. unfold aligner_dtor in HT. destruct HU as [U1 U2 _ _].
  split.
  - intros (h2 & HN & Hf). destruct (existsb (fun p => match p with Away => false | _ => true end) (execs s)) eqn:Hx.
    + apply existsb_exists in Hx as (p & Hin & Hp). apply In_nth_error in Hin as (e & He). exists e, p. split; auto.
      intros ->. discriminate.
    + exfalso. cbn [run step] in Hf. rewrite HT in Hf. cbn [do_part bind] in Hf.
      match type of Hf with run ?x _ = _ => destruct (quiet_run h2 x) as (s' & Hs' & _); [|auto|congruence] end.
      apply nobody_quiet. split; cbn; auto. intros e p H. unfold ph in H. cbn in H. apply nth_error_In in H.
      destruct p as [|t|t]; auto;
        (assert (Y : existsb (fun p => match p with Away => false | _ => true end) (execs s) = true)
          by (apply existsb_exists; eexists; split; [exact H|auto])); congruence.
  - intros (e & p & He & Hp). destruct p as [|t|t]; [congruence| |].
    + exists [Part; Begin e]. split; [intros [H|[H|[]]]; discriminate|].
      cbn [run step]. rewrite HT. cbn. rewrite He, U2. reflexivity.
    + exists [Part; Finish e]. split; [intros [H|[H|[]]]; discriminate|].
      cbn [run step]. rewrite HT. cbn. now rewrite He.
Qed.

(** ** a timer that nobody refers to is never called again *)
Definition gone (t : nat) (s : state) : Prop := cur s <> Some t /\ t < count s /\ ~ referred t s.

Lemma gone_step t s v s' : gone t s -> step s v = Ok s' -> gone t s'.
Proof.
  intros (G1 & G2 & G3) Hs.
  assert (G : forall e p, (forall u, p = Holding u \/ p = Running u -> u <> t) -> gone t (goto s e p)).
  { intros e p Hp. split; [auto|]. split; [auto|]. intros (e' & [H|H]); apply ph_goto in H as [(_ & H)|(_ & H)].
    - now apply (Hp t); auto.
    - apply G3. exists e'. auto.
    - now apply (Hp t); auto.
    - apply G3. exists e'. auto. }
  assert (G0 : gone t s) by (split; auto).
  destruct v as [| |e u|e|e|e]; cbn [step] in Hs; unfold touch in Hs.
  - destruct (alive s); [|discriminate]. injection Hs as <-. split; cbn; [intros [= H]; lia|]. split; [lia|exact G3].
  - destruct (todo s) as [|[] l]; injection Hs as <-; auto; split; auto; cbn; discriminate.
  - destruct (nth_error (execs s) e) as [[|w|w]|] eqn:He; try (injection Hs as <-; auto; fail).
    destruct (exists_timer s u) eqn:Hu; injection Hs as <-; auto. apply G. intros w [[= <-]|H]; [|discriminate]. intros ->.
    unfold exists_timer in Hu. apply orb_prop in Hu as [Hu|Hu].
    + destruct (cur s) as [w|]; [|discriminate]. apply Nat.eqb_eq in Hu as ->. auto.
    + apply refers_exists in Hu. auto.
  - destruct (nth_error (execs s) e) as [[|w|w]|] eqn:He; try (injection Hs as <-; auto; fail).
    destruct (existsb (Nat.eqb w) (cancelled s)); [injection Hs as <-; apply G; intros w' [H|H]; discriminate|].
    destruct (alive s); [|discriminate]. injection Hs as <-. apply G. intros w' [H|[= <-]]; [discriminate|].
    intros ->. apply G3. exists e. auto.
  - destruct (nth_error (execs s) e) as [[|w|w]|] eqn:He; try (injection Hs as <-; auto; fail).
    destruct (alive s); [|discriminate]. injection Hs as <-. apply G. intros w' [H|H]; discriminate.
  - destruct (nth_error (execs s) e) as [[|w|w]|] eqn:He; try (injection Hs as <-; auto; fail).
    injection Hs as <-. apply G. intros w' [H|H]; discriminate.
Qed.

Lemma gone_run t h : forall s s', gone t s -> run s h = Ok s' -> ~ referred t s'.
Proof.
  induction h as [|v h IH]; intros s s' HG Hr; cbn in Hr.
  - injection Hr as <-. apply HG.
  - destruct (step s v) as [s1|] eqn:Hs; [|discriminate]. cbn in Hr. eapply IH; [|exact Hr]. eapply gone_step; eauto.
Qed.

(** ** if the timer is cancelled first *)
Lemma cancel_first s l : todo s = PCancel :: l ->
  (forall e t, ph s e = Some (Holding t) -> cur s = Some t) -> may_fail s -> somebody_runs s.
Proof.
  intros HT HH (h2 & HN & Hf). destruct (existsb (fun p => match p with Running _ => true | _ => false end) (execs s)) eqn:Hx.
  - apply existsb_exists in Hx as (p & Hin & Hp). destruct p as [| |t]; try discriminate.
    apply In_nth_error in Hin as (e & He). exists e, t. auto.
  - exfalso. cbn [run step] in Hf. rewrite HT in Hf. cbn [do_part bind] in Hf.
    match type of Hf with run ?x _ = _ => destruct (quiet_run h2 x) as (s' & Hs' & _); [|auto|congruence] end.
    split; unfold ph; cbn.
    + intros e t H. rewrite (HH e t H). now left.
    + intros t ->. now left.
    + intros e t H. apply nth_error_In in H.
      assert (Y : existsb (fun p => match p with Running _ => true | _ => false end) (execs s) = true)
        by (apply existsb_exists; exists (Running t); auto).
      congruence.
Qed.

Lemma in_use_called s e t : Use s -> cur s = Some t -> ph s e = Some Away ->
  exists s', run s [Collect e t; Begin e] = Ok s' /\ ph s' e = Some (Running t).
Proof.
  intros [U1 U2 _ _] Hc He. unfold ph in *. cbn [run step]. rewrite He. unfold exists_timer. rewrite Hc, Nat.eqb_refl.
  cbn [orb bind]. cbn [step goto execs cancelled]. rewrite nth_upd, Nat.eqb_refl, He, U2. cbn [existsb]. unfold touch. cbn [goto alive].
  rewrite U1. cbn [bind]. eexists. split; [reflexivity|]. cbn. rewrite !nth_upd, Nat.eqb_refl. now rewrite He.
Qed.
