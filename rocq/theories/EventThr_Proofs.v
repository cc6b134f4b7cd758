(** Lemmas for C118. *)
From Coq Require Import List Arith Lia Bool.
From Verif Require Import Base EventThr_Model EventThr_Spec CopyFail_Proofs.
Import ListNotations.

Section Proofs.
Context {V : Type}.

Lemma at_upd (l : list (thread V)) t x t' th : nth_error (upd t x l) t' = Some th -> (t' = t /\ th = x) \/ (t' <> t /\ nth_error l t' = Some th).
Proof.
  intros H. destruct (Nat.eq_dec t' t) as [->|N]; [|rewrite nth_error_upd_other in H; auto].
  rewrite nth_error_upd_same in H; [injection H as <-; auto|]. apply nth_error_Some. intros E. apply nth_error_None in E. assert (nth_error (upd t x l) t = None) by (apply nth_error_None; now rewrite upd_length). congruence.
Qed.
Lemma results_forall (P : nat * V -> Prop) (s : state V) : (forall t th, nth_error (threads s) t = Some th -> Forall P (got th)) -> Forall P (results s).
Proof.
  intros H. apply Forall_forall. intros x Hx. apply in_flat_map in Hx as (th & Hth & Hx). apply In_nth_error in Hth as (t & Ht). specialize (H _ _ Ht). rewrite Forall_forall in H. auto.
Qed.

(** ** events that need no copy *)
Section Const.
Context (const need : bool) (msg : nat) (d v : V).
Hypothesis no_copy : const || negb need = true.
Definition quiet (h : list V) (s : state V) : Prop := mem s = h /\ copy s = None /\ forall t th, nth_error (threads s) t = Some th -> at_ th = Idle /\ Forall (fun x => x = (msg, v)) (got th).
Lemma quiet_step h s t : nth_error h msg = Some v -> quiet h s -> quiet h (step const need msg d s t).
Proof.
  intros Hm (A & B & C). unfold step. destruct (nth_error (threads s) t) as [th|] eqn:E; [|split; auto]. destruct (C _ _ E) as [C1 C2]. rewrite C1. destruct (left th); [split; auto|]. rewrite no_copy.
  split; [auto|]. split; [auto|]. intros t' th' H. cbn in H. apply at_upd in H as [[-> ->]|[_ H]]; [|eauto]. unfold give. cbn. split; auto. rewrite A, Hm. apply Forall_app. auto.
Qed.
Lemma quiet_exec h sched : forall s, nth_error h msg = Some v -> quiet h s -> quiet h (exec const need msg d s sched).
Proof. induction sched as [|t r IH]; intros s Hm Q; cbn; auto. apply IH; auto. now apply quiet_step. Qed.
Lemma quiet_start h calls : quiet h (start h calls).
Proof.
  split; [auto|]. split; [auto|]. intros t th H. cbn in H. apply nth_error_In, in_map_iff in H as (n & <- & _). split; [auto|constructor].
Qed.
End Const.

(** ** one thread at a time *)
Section Serial.
Context (const need : bool) (msg : nat) (d v : V).
Hypothesis copies : const || negb need = false.
Definition orderly (s : state V) : Prop :=
  nth_error (mem s) msg = Some v /\
  match copy s with
  | None => forall t th, nth_error (threads s) t = Some th -> got th = [] /\
              match at_ th with Idle | Test | Make => True | Store a => a <> msg /\ a < length (mem s) | _ => False end
  | Some a => a <> msg /\ a < length (mem s) /\
              ((exists t th, nth_error (threads s) t = Some th /\ at_ th = Fill) \/ nth_error (mem s) a = Some v) /\
              forall t th, nth_error (threads s) t = Some th -> Forall (fun x => x = (a, v)) (got th) /\
                match at_ th with Idle | Test | Give | Fill => True | _ => False end
  end.
Lemma others_idle (s : state V) t t' th : (forall t', busy s t' -> t' = t) -> t' <> t -> nth_error (threads s) t' = Some th -> at_ th = Idle.
Proof. intros H N E. destruct (at_ th) eqn:A; auto; exfalso; apply N, H; exists th; split; auto; congruence. Qed.
Lemma orderly_step s t : orderly s -> (forall t', busy s t' -> t' = t) -> orderly (step const need msg d s t).
Proof.
  intros [M O] A. unfold step. destruct (nth_error (threads s) t) as [th|] eqn:E; [|split; auto].
  assert (msg < length (mem s)) as Lm by (apply nth_error_Some; congruence).
  assert (forall x, at_ th <> Fill -> forall a, (exists t th, nth_error (threads s) t = Some th /\ at_ th = Fill) \/ nth_error (mem s) a = Some v ->
    (exists t' th', nth_error (upd t x (threads s)) t' = Some th' /\ at_ th' = Fill) \/ nth_error (mem s) a = Some v) as Keep.
  { intros x N a [(t' & th' & H & Hf)|H]; auto. left. exists t', th'. split; auto. rewrite nth_error_upd_other; auto. intros ->. congruence. }
  destruct (at_ th) as [| | | |a|] eqn:Ea.
  - destruct (left th) as [|n]; [split; auto|]. rewrite copies. split; [auto|]. cbn [copy mem threads]. destruct (copy s) as [a|].
    + destruct O as (O1 & O2 & O4 & O5). split; auto. split; auto. split; [apply Keep; auto; congruence|].
      intros t' th' H. apply at_upd in H as [[-> ->]|[_ H]]; [|apply (O5 _ _ H)]. cbn. split; auto. apply (O5 _ _ E).
    + intros t' th' H. apply at_upd in H as [[-> ->]|[_ H]]; [|apply (O _ _ H)]. cbn. split; auto. apply (O _ _ E).
  - split; [auto|]. cbn [copy mem threads]. destruct (copy s) as [a|].
    + destruct O as (O1 & O2 & O4 & O5). split; auto. split; auto. split; [apply Keep; auto; congruence|].
      intros t' th' H. apply at_upd in H as [[-> ->]|[_ H]]; [|apply (O5 _ _ H)]. cbn. split; auto. apply (O5 _ _ E).
    + intros t' th' H. apply at_upd in H as [[-> ->]|[_ H]]; [|apply (O _ _ H)]. cbn. split; auto. apply (O _ _ E).
  - destruct (copy s) as [a|] eqn:Ecp; [|destruct (O _ _ E) as [_ N]; rewrite Ea in N; tauto]. destruct O as (O1 & O2 & O4 & O5). split; [auto|]. cbn [copy mem threads].
    assert (nth_error (mem s) a = Some v) as Va. { destruct O4 as [(t' & th' & H & Hf)|O4]; auto. assert (t' = t) as -> by (apply A; exists th'; split; auto; congruence). congruence. }
    split; auto. split; auto. split; auto. intros t' th' H. apply at_upd in H as [[-> ->]|[_ H]]; [|apply (O5 _ _ H)]. unfold give. cbn. rewrite Va. split; auto. apply Forall_app. split; auto. apply (O5 _ _ E).
  - destruct (copy s) as [a|] eqn:Ecp; [destruct O as (_ & _ & _ & O5); destruct (O5 _ _ E) as [_ N]; rewrite Ea in N; tauto|].
    split; cbn [copy mem threads]; [rewrite nth_error_app1; auto|]. intros t' th' H. apply at_upd in H as [[-> ->]|[N H]].
    + cbn. rewrite app_length. cbn. split; [apply (O _ _ E)|lia].
    + split; [apply (O _ _ H)|]. rewrite (others_idle s t t' th'); auto.
  - destruct (copy s) as [b|] eqn:Ecp; [destruct O as (_ & _ & _ & O5); destruct (O5 _ _ E) as [_ N]; rewrite Ea in N; tauto|].
    pose proof (O _ _ E) as [N0 N]. rewrite Ea in N. destruct N as [N1 N2]. split; [auto|]. cbn [copy mem threads]. split; auto. split; auto. split.
    { left. exists t, (mkThread Fill (left th) (got th)). split; [|reflexivity]. apply nth_error_upd_same. apply nth_error_Some. congruence. }
    intros t' th' H. apply at_upd in H as [[-> ->]|[N H]]; cbn; [rewrite N0; auto|]. destruct (O _ _ H) as [-> _]. rewrite (others_idle s t t' th'); auto.
  - destruct (copy s) as [a|] eqn:Ecp; [|destruct (O _ _ E) as [_ N]; rewrite Ea in N; tauto]. destruct O as (O1 & O2 & O4 & O5). rewrite M. split; cbn [copy mem threads].
    + rewrite nth_error_upd_other; auto.
    + rewrite upd_length. split; auto. split; auto. split; [right; now apply nth_error_upd_same|].
      intros t' th' H. apply at_upd in H as [[-> ->]|[_ H]]; [|apply (O5 _ _ H)]. cbn. split; auto. apply (O5 _ _ E).
Qed.
Lemma orderly_exec sched : forall s, orderly s -> one_at_a_time const need msg d s sched -> orderly (exec const need msg d s sched).
Proof. induction sched as [|t r IH]; intros s O A; cbn in *; auto. destruct A as [A1 A2]. apply IH; auto. now apply orderly_step. Qed.
Lemma orderly_start h calls : nth_error h msg = Some v -> orderly (start h calls).
Proof. intros H. split; [exact H|]. cbn. intros t th E. apply nth_error_In, in_map_iff in E as (n & <- & _). cbn. auto. Qed.
Lemma orderly_results s : orderly s -> nth_error (mem s) msg = Some v /\ exists a, Forall (fun x => x = (a, v)) (results s).
Proof.
  intros [M O]. split; auto. destruct (copy s) as [a|]; [exists a|exists 0]; apply results_forall; intros t th E.
  - destruct O as (_ & _ & _ & O). apply (O _ _ E).
  - destruct (O _ _ E) as [-> _]. constructor.
Qed.
End Serial.

(** ** races *)
Lemma racing_busy (s : state V) : racing s -> exists t1 t2, t1 <> t2 /\ busy s t1 /\ busy s t2.
Proof.
  intros (t1 & t2 & th1 & th2 & w1 & w2 & N & E1 & E2 & A1 & A2 & _). exists t1, t2. split; auto. split; [exists th1|exists th2]; (split; [auto|]); intros I; unfold touches in *; rewrite I in *; discriminate.
Qed.
Lemma busy_step const need msg d (s : state V) t t' : busy (step const need msg d s t) t' -> t' <> t -> busy s t'.
Proof.
  intros (th & E & B) N. exists th. split; auto. unfold step in E. destruct (nth_error (threads s) t) as [x|]; auto.
  destruct (at_ x); [destruct (left x); [|destruct (const || negb need)]| |destruct (copy s)| | |destruct (copy s); [destruct (nth_error (mem s) msg)|]]; cbn [threads] in E; auto; rewrite nth_error_upd_other in E; auto.
Qed.
Lemma serial_busy const need msg d sched : forall s : state V, (forall t1 t2, busy s t1 -> busy s t2 -> t1 = t2) -> one_at_a_time const need msg d s sched ->
  forall t1 t2, busy (exec const need msg d s sched) t1 -> busy (exec const need msg d s sched) t2 -> t1 = t2.
Proof.
  induction sched as [|t r IH]; intros s B A; cbn in *; auto. destruct A as [A1 A2]. apply IH; auto. intros t1 t2 B1 B2.
  assert (forall t', busy (step const need msg d s t) t' -> t' = t) as H. { intros t' B'. destruct (Nat.eq_dec t' t) as [|N]; auto. apply A1. eapply busy_step; eauto. }
  rewrite (H _ B1), (H _ B2). auto.
Qed.
Lemma start_busy (h : list V) calls t : ~ busy (start h calls) t.
Proof. intros (th & E & B). cbn in E. apply nth_error_In, in_map_iff in E as (n & <- & _). now apply B. Qed.

(** ** all schedules: calls return *)
Section All.
Context (const need : bool) (msg : nat) (d : V) (calls : list nat).
Definition pending (p : pc) : nat := match p with Idle => 0 | _ => 1 end.
Definition valid (s : state V) : Prop :=
  msg < length (mem s) /\ (forall a, copy s = Some a -> a < length (mem s)) /\
  forall t th, nth_error (threads s) t = Some th ->
    match at_ th with Give | Fill => copy s <> None | Store a => a < length (mem s) | _ => True end /\
    nth_error calls t = Some (length (got th) + left th + pending (at_ th)).
Lemma valid_goto s t th p (n : nat) : valid s -> nth_error (threads s) t = Some th ->
  match p with Give | Fill => copy s <> None | Store a => a < length (mem s) | _ => True end -> n + pending p = left th + pending (at_ th) ->
  valid (mkState (mem s) (copy s) (upd t (mkThread p n (got th)) (threads s))).
Proof.
  intros (A & B & C) E Hp Hn. split; [auto|]. split; [auto|]. cbn [mem copy threads]. intros t' th' H. apply at_upd in H as [[-> ->]|[_ H]]; [|apply (C _ _ H)]. cbn. split; auto. rewrite (proj2 (C _ _ E)). f_equal. lia.
Qed.
Lemma valid_grow s x : valid s -> valid (mkState (mem s ++ [x]) (copy s) (threads s)).
Proof.
  intros (A & B & C). split; cbn; [rewrite app_length; lia|]. split; [intros a Ha; rewrite app_length; apply B in Ha; lia|]. intros t th E. destruct (C _ _ E) as [C1 C2]. split; auto. destruct (at_ th); auto. rewrite app_length. lia.
Qed.
Lemma valid_copy s a : valid s -> a < length (mem s) -> valid (mkState (mem s) (Some a) (threads s)).
Proof.
  intros (A & B & C) L. split; cbn; auto. split; [intros b [= <-]; auto|]. intros t th E. destruct (C _ _ E) as [C1 C2]. split; auto. destruct (at_ th); auto; discriminate.
Qed.
Lemma valid_write s a x : valid s -> valid (mkState (upd a x (mem s)) (copy s) (threads s)).
Proof. intros (A & B & C). unfold valid. cbn. rewrite upd_length. auto. Qed.
Lemma valid_give s t th p n : valid s -> nth_error (threads s) t = Some th -> p < length (mem s) -> S n = left th + pending (at_ th) ->
  valid (mkState (mem s) (copy s) (upd t (give (mem s) (mkThread Idle n (got th)) p) (threads s))).
Proof.
  intros (A & B & C) E Hp Hn. split; [auto|]. split; [auto|]. cbn [mem copy threads]. intros t' th' H. apply at_upd in H as [[-> ->]|[_ H]]; [|apply (C _ _ H)]. unfold give. cbn.
  destruct (nth_error (mem s) p) eqn:Ep; [|apply nth_error_None in Ep; lia]. split; auto. rewrite (proj2 (C _ _ E)), app_length. cbn. f_equal. lia.
Qed.
(** a thread with a call to make or in the middle of one always gets on *)
Definition stage (p : pc) : nat := match p with Idle => 0 | Give => 1 | Fill => 2 | Store _ => 3 | Make => 4 | Test => 5 end.
Definition todo (th : thread V) : nat := 6 * left th + stage (at_ th).
Lemma valid_step s t : valid s -> valid (step const need msg d s t) /\
  forall th, nth_error (threads s) t = Some th -> 0 < todo th -> exists th', nth_error (threads (step const need msg d s t)) t = Some th' /\ todo th' < todo th.
Proof.
  intros W. pose proof W as (A & B & C). unfold step. destruct (nth_error (threads s) t) as [th|] eqn:E; [|split; [auto|discriminate]].
  destruct (C _ _ E) as [C1 C2]. assert (t < length (threads s)) as Lt by (apply nth_error_Some; congruence).
  assert (forall x (P : Prop), P -> todo x < todo th -> P /\ (forall th0, Some th = Some th0 -> 0 < todo th0 -> exists th', nth_error (upd t x (threads s)) t = Some th' /\ todo th' < todo th0)) as Next.
  { intros x P HP Hx. split; auto. intros th0 [= <-] _. exists x. split; auto. now apply nth_error_upd_same. }
  destruct (at_ th) as [| | | |a|] eqn:Ea.
  - destruct (left th) as [|n] eqn:El; [split; auto; intros th0 [= <-]; unfold todo; rewrite Ea, El; cbn; lia|].
    destruct (const || negb need); apply Next; try (unfold todo; rewrite Ea, El; cbn; lia).
    + apply valid_give; auto. rewrite Ea, El. cbn. lia.
    + apply valid_goto; auto. rewrite Ea, El. cbn. lia.
  - apply Next; [apply valid_goto; auto; rewrite ?Ea; destruct (copy s); cbn; auto; discriminate|]. unfold todo. rewrite Ea. cbn. destruct (copy s); cbn; lia.
  - destruct (copy s) as [a|] eqn:Ec; [|congruence]. apply Next; [|unfold todo; rewrite Ea; cbn; lia]. rewrite <- Ec. apply valid_give with (n := left th) (th := th); auto. rewrite Ea. cbn. lia.
  - apply Next; [|unfold todo; rewrite Ea; cbn; lia]. apply (valid_goto (mkState (mem s ++ [d]) (copy s) (threads s)) t th (Store (length (mem s))) (left th) (valid_grow _ _ W) E); [cbn; rewrite app_length; cbn; lia|rewrite Ea; cbn; lia].
  - apply Next; [|unfold todo; rewrite Ea; cbn; lia]. apply (valid_goto (mkState (mem s) (Some a) (threads s)) t th Fill (left th) (valid_copy _ _ W C1) E); [cbn; discriminate|rewrite Ea; cbn; lia].
  - destruct (copy s) as [a|] eqn:Ec; [|congruence]. destruct (nth_error (mem s) msg) as [v|] eqn:Em; [|apply nth_error_None in Em; lia]. apply Next; [|unfold todo; rewrite Ea; cbn; lia]. rewrite <- Ec.
    apply (valid_goto (mkState (upd a v (mem s)) (copy s) (threads s)) t th Give (left th) (valid_write _ _ _ W) E); [cbn; congruence|rewrite Ea; cbn; lia].
Qed.
Lemma step_other (s : state V) t t' : t' <> t -> nth_error (threads (step const need msg d s t)) t' = nth_error (threads s) t'.
Proof.
  intros N. unfold step. destruct (nth_error (threads s) t) as [x|]; auto.
  destruct (at_ x); [destruct (left x); [|destruct (const || negb need)]| |destruct (copy s)| | |destruct (copy s); [destruct (nth_error (mem s) msg)|]]; cbn [threads]; auto; now rewrite nth_error_upd_other.
Qed.
Lemma finishes t others : forall s th th', valid s -> nth_error (threads s) t = Some th -> todo th <= length (filter (Nat.eqb t) others) ->
  nth_error (threads (exec const need msg d s others)) t = Some th' -> todo th' = 0.
Proof.
  induction others as [|o others IH]; intros s th th' W E L E'; cbn [exec filter length] in *.
  - assert (th' = th) as -> by congruence. lia.
  - destruct (valid_step s o W) as [W' P]. destruct (Nat.eqb_spec t o) as [->|N].
    + cbn [length] in L. destruct (Nat.eq_dec (todo th) 0) as [Z|Z].
      * eapply (IH (step const need msg d s o) th); eauto; [|lia]. unfold todo in Z. destruct (at_ th) eqn:Ea; cbn in Z; try lia. unfold step. rewrite E, Ea. destruct (left th); [exact E|lia].
      * destruct (P _ E) as (th1 & E1 & L1); [lia|]. eapply (IH (step const need msg d s o) th1); eauto. lia.
    + eapply (IH (step const need msg d s o) th); eauto. now rewrite step_other.
Qed.
Lemma valid_exec sched : forall s, valid s -> valid (exec const need msg d s sched).
Proof. induction sched as [|t r IH]; intros s W; cbn; auto. apply IH. now apply valid_step. Qed.
Lemma valid_start h : msg < length h -> valid (start h calls).
Proof.
  intros H. split; auto. split; [discriminate|]. intros t th E. cbn in E. rewrite nth_error_map in E. destruct (nth_error calls t) as [n|] eqn:En; [|discriminate]. injection E as <-. cbn. split; auto.
Qed.
End All.
End Proofs.
