(** Lemmas for C114. *)
From Coq Require Import List Arith Bool.
From Verif Require Import Base Reent_Model Reent_Spec.
Import ListNotations.

Section Proofs.
Context {St Op Res Msg : Type}.
Variable body : St -> Op -> res (St * Res * list Msg).
Variable takes : Op -> bool.
Variable held : bool.
Notation entry := (Op * Res * list Msg)%type.
Variable callback : list entry -> Msg -> prog Op Res.
Notation inside := (inside body takes held).
Notation signal := (signal body takes held callback).
Notation run_re := (run_re body takes held callback).

Lemma replay_app s a s1 b s' : replay body s a s1 -> replay body s1 b s' -> replay body s (a ++ b) s'.
Proof. induction 1; cbn; auto. intros. econstructor; eauto. Qed.

Lemma inside_replay p : forall s tr s' tr', inside s tr p = Ok (s', tr') ->
  exists calls, tr' = tr ++ calls /\ replay body s calls s' /\ made p calls.
Proof.
  induction p as [|o k IH|k IH]; intros s tr s' tr' H; cbn in H; try discriminate.
  - injection H as <- <-. exists []. rewrite app_nil_r. repeat split; constructor.
  - destruct (takes o && held); [discriminate|]. destruct (body s o) as [[[s1 r] ms]|] eqn:B; [|discriminate]. cbn in H.
    destruct ms; [|discriminate]. apply IH in H as (calls & -> & R & Q). exists ((o, r, []) :: calls). rewrite <- app_assoc. repeat split.
    + econstructor; eauto.
    + constructor; auto.
Qed.
Lemma signal_replay ms : forall s tr s' tr', signal s tr ms = Ok (s', tr') ->
  exists calls, tr' = tr ++ calls /\ replay body s calls s' /\ heard callback tr ms calls.
Proof.
  induction ms as [|m ms IH]; intros s tr s' tr' H; cbn in H.
  - injection H as <- <-. exists []. rewrite app_nil_r. repeat split; constructor.
  - destruct (inside s tr (callback tr m)) as [[s1 tr1]|] eqn:I; [|discriminate]. cbn in H.
    apply inside_replay in I as (c1 & -> & R1 & Q1). apply IH in H as (c2 & -> & R2 & Q2). exists (c1 ++ c2).
    rewrite app_assoc. repeat split; [eapply replay_app; eauto|]. constructor; auto.
Qed.
Lemma run_replay h : forall s tr s' tr', run_re s tr h = Ok (s', tr') ->
  exists calls, tr' = tr ++ calls /\ replay body s calls s' /\ nested callback tr h calls.
Proof.
  induction h as [|o h IH]; intros s tr s' tr' H; cbn in H.
  - injection H as <- <-. exists []. rewrite app_nil_r. repeat split; constructor.
  - destruct (body s o) as [[[s1 r] ms]|] eqn:B; [|discriminate]. cbn in H.
    destruct (signal s1 (tr ++ [(o, r, ms)]) ms) as [[s2 tr2]|] eqn:S; [|discriminate]. cbn in H.
    apply signal_replay in S as (c1 & -> & R1 & Q1). apply IH in H as (c2 & -> & R2 & N2).
    exists ((o, r, ms) :: c1 ++ c2). rewrite <- !app_assoc in *. cbn in *. repeat split.
    + econstructor; eauto. eapply replay_app; eauto.
    + constructor; auto.
Qed.
Lemma made_silent (p : prog Op Res) (cs : list entry) e : made p cs -> In e cs -> snd e = [].
Proof. induction 1; intros []; subst; auto. Qed.
Lemma heard_silent past ms cs e : heard callback past ms cs -> In e cs -> snd e = [].
Proof. induction 1 as [|past m ms a b Ha Hb IH]; intros He; [destruct He|]. apply in_app_or in He as []; auto. eapply made_silent; eauto. Qed.

Section Quiet.
Hypothesis NB : never_blocks body.
Hypothesis NH : held = false.
Hypothesis Q : forall tr m, only (silent body) (callback tr m).
Lemma inside_nb p : only (silent body) p -> forall s tr, inside s tr p <> Err Deadlock.
Proof.
  induction p as [|o k IH|k IH]; intros O s tr; cbn; try discriminate; [|destruct O].
  replace (takes o && held) with false by (rewrite NH; symmetry; apply andb_false_r). destruct O as [Ho Hk]. destruct (body s o) as [[[s1 r] ms]|e] eqn:B; cbn.
  - rewrite (Ho _ _ _ _ B). apply IH, Hk.
  - intros E. injection E as ->. now apply NB in B.
Qed.
Lemma signal_nb ms : forall s tr, signal s tr ms <> Err Deadlock.
Proof.
  induction ms as [|m ms IH]; intros s tr; cbn; try discriminate. pose proof (inside_nb _ (Q tr m) s tr) as H.
  destruct (inside s tr (callback tr m)) as [[s1 tr1]|e]; cbn; auto.
Qed.
Lemma run_nb h : forall s tr, run_re s tr h <> Err Deadlock.
Proof.
  induction h as [|o h IH]; intros s tr; cbn; try discriminate. destruct (body s o) as [[[s1 r] ms]|e] eqn:B; cbn.
  - pose proof (signal_nb ms s1 (tr ++ [(o, r, ms)])) as H. destruct (signal s1 _ ms) as [[s2 tr2]|]; cbn; auto.
  - intros E. injection E as ->. now apply NB in B.
Qed.
End Quiet.

(** Calls in [P] succeed as long as [I] holds, which they preserve *)
Section Total.
Variable I : St -> Prop.
Variable P : Op -> Prop.
Hypothesis TB : forall s o, I s -> P o -> exists s' r ms, body s o = Ok (s', r, ms) /\ I s'.
Hypothesis NH : held = false.
Hypothesis Q : forall tr m, only (fun o => P o /\ silent body o) (callback tr m).
Lemma inside_total p : only (fun o => P o /\ silent body o) p -> forall s tr, I s -> exists s' tr', inside s tr p = Ok (s', tr') /\ I s'.
Proof.
  induction p as [|o k IH|k IH]; intros O s tr HI; cbn; [eauto| |destruct O].
  replace (takes o && held) with false by (rewrite NH; symmetry; apply andb_false_r). destruct O as [[HP Ho] Hk].
  destruct (TB s o HI HP) as (s1 & r & ms & B & HI1). rewrite B. cbn. rewrite (Ho _ _ _ _ B). apply IH; auto.
Qed.
Lemma signal_total ms : forall s tr, I s -> exists s' tr', signal s tr ms = Ok (s', tr') /\ I s'.
Proof.
  induction ms as [|m ms IH]; intros s tr HI; cbn; [eauto|]. destruct (inside_total _ (Q tr m) s tr HI) as (s1 & tr1 & -> & HI1). cbn. auto.
Qed.
Lemma run_total h : forall s tr, I s -> (forall o, In o h -> P o) -> exists s' tr', run_re s tr h = Ok (s', tr') /\ I s'.
Proof.
  induction h as [|o h IH]; intros s tr HI HP; cbn; [eauto|]. destruct (TB s o HI (HP o (or_introl eq_refl))) as (s1 & r & ms & -> & HI1). cbn.
  destruct (signal_total ms s1 (tr ++ [(o, r, ms)]) HI1) as (s2 & tr2 & -> & HI2). cbn. apply IH; auto. intros; apply HP; now right.
Qed.
End Total.

(** Callbacks that block at once whenever they are called *)
Section Loud.
Hypothesis L : forall s tr tr' m, inside s tr (callback tr' m) = Err Deadlock.
Lemma run_loud h : forall s tr s' calls, replay body s calls s' -> map (fun e => fst (fst e)) calls = h ->
  (exists e, In e calls /\ snd e <> []) -> run_re s tr h = Err Deadlock.
Proof.
  induction h as [|o h IH]; intros s tr s' calls R E (e & He & Hn); destruct calls as [|[[o' r] ms] calls]; try discriminate E; [destruct He|].
  injection E as E0 E. cbn in E0. subst o'. inversion R as [|? s1 ? ? ? ? ? B R']; subst. cbn. rewrite B. cbn. destruct ms as [|m ms].
  - cbn. eapply IH; eauto. destruct He as [<-|He]; [now cbn in Hn|]. eauto.
  - cbn. rewrite L. reflexivity.
Qed.
End Loud.
End Proofs.
