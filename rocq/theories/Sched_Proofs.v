(** Schedules: every execution is equivalent to one in which the sections are not interrupted, in
    the order in which their mutexes are taken. *)
From Coq Require Import List Arith Bool Lia.
From Verif Require Import Base Sched_Model Sched_Spec.
Import ListNotations.

Lemma nth_error_upd {A} i j (x : A) l : nth_error (upd i x l) j = if Nat.eqb i j then match nth_error l i with Some _ => Some x | None => None end else nth_error l j.
Proof.
  revert i j. induction l as [|a l IH]; intros [|i] [|j]; cbn; auto. destruct (Nat.eqb i j); auto.
Qed.

Section Machine.
Context {P R : Type}.
Notation config := (config P R).
Notation prog := (prog P R).

(** ** sections in one step *)
Record aconfig := mkA { apart : nat -> P; progs : list prog }.
Definition astep (a : aconfig) (tid : nat) : aconfig :=
  match nth_error (progs a) tid with
  | Some (Sec l b k) => let (p, r) := sect_run b (apart a l) in mkA (set (apart a) l p) (upd tid (k r) (progs a))
  | _ => a
  end.
Definition arun (tids : list nat) (a : aconfig) : aconfig := fold_left astep tids a.

Record sim (c : config) (a : aconfig) : Prop := mkSim {
  sim_len : length (threads c) = length (progs a);
  sim_free : forall l, owner c l = None -> apart a l = part c l;
  sim_out : forall tid p, nth_error (threads c) tid = Some (Out p) -> nth_error (progs a) tid = Some p;
  sim_in : forall tid l b k, nth_error (threads c) tid = Some (Within l b k) -> owner c l = Some tid /\
    apart a l = fst (sect_run b (part c l)) /\ nth_error (progs a) tid = Some (k (snd (sect_run b (part c l))));
  sim_own : forall l tid, owner c l = Some tid -> exists b k, nth_error (threads c) tid = Some (Within l b k)
}.

Lemma set_eq {A} (f : nat -> A) l x : set f l x l = x.
Proof. unfold set. now rewrite Nat.eqb_refl. Qed.
Lemma set_neq {A} (f : nat -> A) l l' x : l' <> l -> set f l x l' = f l'.
Proof. intros N. unfold set. destruct (Nat.eqb_spec l' l); congruence. Qed.

Ltac at_upd H := rewrite nth_error_upd in H; match type of H with context [Nat.eqb ?a ?b] => destruct (Nat.eqb_spec a b) as [?|?]; [subst b|] end.

Lemma sim_step tid c a c' acq : sim c a -> step tid c = (c', acq) -> sim c' (arun (map fst acq) a).
Proof.
  intros [L F O I W] E. unfold step in E. destruct (nth_error (threads c) tid) as [[p|l b k]|] eqn:Et; [|destruct b as [r|f k']|].
  - destruct p as [|l b k]; [injection E as <- <-; constructor; auto|]. destruct (owner c l) as [o|] eqn:Eo; [injection E as <- <-; constructor; auto|]. injection E as <- <-. cbn.
    pose proof (O _ _ Et) as Ea. unfold astep. rewrite Ea. destruct (sect_run b (apart a l)) as [p r] eqn:Er. rewrite (F _ Eo) in Er.
    constructor; cbn [part owner threads apart progs].
    + now rewrite !upd_length.
    + intros l' El'. unfold set in El'. destruct (Nat.eqb_spec l' l) as [|N]; [discriminate|]. rewrite set_neq by auto. auto.
    + intros t q Eq. at_upd Eq; [rewrite Et in Eq; discriminate|]. rewrite nth_error_upd. destruct (Nat.eqb_spec tid t); [contradiction|auto].
    + intros t l' b' k1 Eq. at_upd Eq.
      * rewrite Et in Eq. injection Eq as <- <- <-. rewrite !set_eq, Er. cbn. split; auto. split; auto. rewrite nth_error_upd, Nat.eqb_refl, Ea. auto.
      * destruct (I _ _ _ _ Eq) as (A & B & C). assert (N : l' <> l) by congruence. rewrite !set_neq by auto. split; auto. split; auto. rewrite nth_error_upd. destruct (Nat.eqb_spec tid t); [contradiction|auto].
    + intros l' t Eo'. unfold set in Eo'. destruct (Nat.eqb_spec l' l) as [->|N].
      * injection Eo' as <-. exists b, k. rewrite nth_error_upd, Nat.eqb_refl, Et. auto.
      * destruct (W _ _ Eo') as (b' & k1 & Eq). exists b', k1. rewrite nth_error_upd. destruct (Nat.eqb_spec tid t) as [<-|]; auto. congruence.
  - injection E as <- <-. cbn. destruct (I _ _ _ _ Et) as (A & B & C). cbn in B, C. constructor; cbn [part owner threads].
    + now rewrite upd_length.
    + intros l' El'. destruct (Nat.eq_dec l' l) as [->|N]; auto. rewrite set_neq in El' by auto. auto.
    + intros t q Eq. at_upd Eq; [rewrite Et in Eq; injection Eq as <-|]; auto.
    + intros t l' b' k1 Eq. at_upd Eq; [rewrite Et in Eq; discriminate|]. destruct (I _ _ _ _ Eq) as (A' & B' & C'). assert (N : l' <> l) by congruence. rewrite set_neq by auto. auto.
    + intros l' t Eo'. destruct (Nat.eq_dec l' l) as [->|N]; [rewrite set_eq in Eo'; discriminate|]. rewrite set_neq in Eo' by auto. destruct (W _ _ Eo') as (b' & k1 & Eq). exists b', k1.
      rewrite nth_error_upd. destruct (Nat.eqb_spec tid t) as [<-|]; auto. congruence.
  - destruct (f (part c l)) as [p r] eqn:Ef. injection E as <- <-. cbn. destruct (I _ _ _ _ Et) as (A & B & C). cbn in B, C. rewrite Ef in B, C. constructor; cbn [part owner threads].
    + now rewrite upd_length.
    + intros l' El'. rewrite set_neq by congruence. auto.
    + intros t q Eq. at_upd Eq; [rewrite Et in Eq; discriminate|]. auto.
    + intros t l' b' k1 Eq. at_upd Eq.
      * rewrite Et in Eq. injection Eq as <- <- <-. rewrite set_eq. auto.
      * destruct (I _ _ _ _ Eq) as (A' & B' & C'). assert (N : l' <> l) by congruence. rewrite set_neq by auto. auto.
    + intros l' t Eo'. destruct (W _ _ Eo') as (b' & k1 & Eq). rewrite nth_error_upd. destruct (Nat.eqb_spec tid t) as [<-|]; eauto. rewrite Et in *. injection Eq as <- <- <-. eauto.
  - injection E as <- <-. constructor; auto.
Qed.
Lemma arun_app x y a : arun (x ++ y) a = arun y (arun x a).
Proof. apply fold_left_app. Qed.
Lemma sim_exec sched : forall c a c' acq, sim c a -> exec sched c = (c', acq) -> sim c' (arun (map fst acq) a).
Proof.
  induction sched as [|t r IH]; intros c a c' acq S E; cbn in E; [injection E as <- <-; exact S|]. destruct (step t c) as [c1 a1] eqn:E1. destruct (exec r c1) as [c2 a2] eqn:E2. injection E as <- <-.
  rewrite map_app, arun_app. eapply IH; eauto. eapply sim_step; eauto.
Qed.
(** the sections really run in this order *)
Fixpoint valid (acq : list (nat * nat)) (a : aconfig) : Prop :=
  match acq with [] => True | (t, l) :: r => (exists b k, nth_error (progs a) t = Some (Sec l b k)) /\ valid r (astep a t) end.
Lemma valid_app x : forall y a, valid (x ++ y) a <-> valid x a /\ valid y (arun (map fst x) a).
Proof. induction x as [|[t l] x IH]; intros y a; cbn; [tauto|]. rewrite IH. tauto. Qed.
Lemma sim_step_valid tid c a c' acq : sim c a -> step tid c = (c', acq) -> valid acq a.
Proof.
  intros S E. unfold step in E. destruct (nth_error (threads c) tid) as [[[|l b k]|l [r|f k'] k]|] eqn:Et; try (injection E as <- <-; exact I).
  - destruct (owner c l); injection E as <- <-; cbn; auto. split; auto. exists b, k. apply (sim_out _ _ S _ _ Et).
  - destruct (f (part c l)). injection E as <- <-. exact I.
Qed.
Lemma sim_exec_valid sched : forall c a c' acq, sim c a -> exec sched c = (c', acq) -> valid acq a.
Proof.
  induction sched as [|t r IH]; intros c a c' acq S E; cbn in E; [injection E as <- <-; exact I|]. destruct (step t c) as [c1 a1] eqn:E1. destruct (exec r c1) as [c2 a2] eqn:E2. injection E as <- <-.
  apply valid_app. split; [eapply sim_step_valid; eauto|]. eapply IH; eauto. eapply sim_step; eauto.
Qed.
Lemma sim_start p0 ps : sim (start p0 ps) (mkA p0 ps).
Proof.
  constructor; cbn; auto.
  - apply map_length.
  - intros tid p E. rewrite nth_error_map in E. destruct (nth_error ps tid); cbn in E; congruence.
  - intros tid l b k E. rewrite nth_error_map in E. destruct (nth_error ps tid); discriminate.
  - discriminate.
Qed.
Lemma idle_free c a : sim c a -> idle c -> forall l, apart a l = part c l.
Proof. intros S H l. destruct (owner c l) as [t|] eqn:E; [|now apply sim_free]. destruct (sim_own _ _ S _ _ E) as (b & k & Eb). destruct (H _ _ _ _ Eb). Qed.
Lemma idle_threads c a : sim c a -> idle c -> threads c = map Out (progs a).
Proof.
  intros S H. assert (Hn : forall j, nth_error (threads c) j = nth_error (map Out (progs a)) j).
  { intros j. rewrite nth_error_map. destruct (nth_error (threads c) j) as [[p|l b k]|] eqn:E.
    - now rewrite (sim_out _ _ S _ _ E).
    - destruct (H _ _ _ _ E).
    - apply nth_error_None in E. rewrite (sim_len _ _ S) in E. apply nth_error_None in E. now rewrite E. }
  revert Hn. generalize (map Out (progs a)) (threads c). clear. intros l l'. revert l. induction l' as [|x l' IH]; intros [|y l] Hn; auto; try (specialize (Hn 0); discriminate).
  f_equal; [specialize (Hn 0); cbn in Hn; congruence|apply IH; intros j; apply (Hn (S j))].
Qed.

(** ** progress *)
Lemma exec_app s1 s2 (c : config) : exec (s1 ++ s2) c = (fst (exec s2 (fst (exec s1 c))), snd (exec s1 c) ++ snd (exec s2 (fst (exec s1 c)))).
Proof.
  revert c. induction s1 as [|t s1 IH]; intros c; cbn; [now destruct (exec s2 c)|]. destruct (step t c) as [c1 a1]. rewrite IH. destruct (exec s1 c1) as [c2 a2]. cbn. now rewrite app_assoc.
Qed.
Lemma exec_cons t s (c : config) : fst (exec (t :: s) c) = fst (exec s (fst (step t c))).
Proof. cbn. destruct (step t c) as [c1 a1]. cbn. now destruct (exec s c1). Qed.
Lemma finish_sect tid l : forall b k (c : config), nth_error (threads c) tid = Some (Within l b k) -> exists s, let c' := fst (exec s c) in
  (exists r, nth_error (threads c') tid = Some (Out (k r))) /\ (forall j, j <> tid -> nth_error (threads c') j = nth_error (threads c) j) /\
  (forall l', owner c' l' = if Nat.eqb l' l then None else owner c l').
Proof.
  induction b as [r|f k' IH]; intros k c E.
  - exists [tid]. cbn. unfold step. rewrite E. cbn. split; [exists r; rewrite nth_error_upd, Nat.eqb_refl, E; auto|]. split; [|reflexivity].
    intros j N. rewrite nth_error_upd. destruct (Nat.eqb_spec tid j); congruence.
  - destruct (f (part c l)) as [p r] eqn:Ef. set (c1 := mkConfig (set (part c) l p) (owner c) (upd tid (Within l (k' r) k) (threads c))).
    assert (E1 : nth_error (threads c1) tid = Some (Within l (k' r) k)) by (cbn; rewrite nth_error_upd, Nat.eqb_refl, E; auto).
    destruct (IH r k c1 E1) as (s & A & B & C). exists (tid :: s). rewrite exec_cons. replace (fst (step tid c)) with c1 by (unfold step; rewrite E, Ef; reflexivity).
    split; auto. split; auto. intros j N. rewrite (B j N). cbn. rewrite nth_error_upd. destruct (Nat.eqb_spec tid j); congruence.
Qed.
Lemma finish_prog tid : forall p (c : config), nth_error (threads c) tid = Some (Out p) -> (forall l, owner c l = None) -> exists s, let c' := fst (exec s c) in
  nth_error (threads c') tid = Some (Out Done) /\ (forall j, j <> tid -> nth_error (threads c') j = nth_error (threads c) j) /\ (forall l, owner c' l = None).
Proof.
  induction p as [|l b k IH]; intros c E Ho; [exists []; cbn; auto|].
  set (c1 := mkConfig (part c) (set (owner c) l (Some tid)) (upd tid (Within l b k) (threads c))).
  assert (E1 : nth_error (threads c1) tid = Some (Within l b k)) by (cbn; rewrite nth_error_upd, Nat.eqb_refl, E; auto).
  destruct (finish_sect _ _ _ _ _ E1) as (s1 & (r & A1) & B1 & C1). assert (Ho1 : forall l', owner (fst (exec s1 c1)) l' = None).
  { intros l'. rewrite C1. destruct (Nat.eqb_spec l' l); auto. cbn. rewrite set_neq by auto. apply Ho. }
  destruct (IH r _ A1 Ho1) as (s2 & A2 & B2 & C2). exists (tid :: s1 ++ s2). rewrite exec_cons. replace (fst (step tid c)) with c1 by (unfold step; rewrite E, Ho; reflexivity).
  rewrite exec_app. cbn [fst]. split; auto. split; auto. intros j N. rewrite (B2 j N), (B1 j N). cbn. rewrite nth_error_upd. destruct (Nat.eqb_spec tid j); congruence.
Qed.
(** all threads of number below [n] leave their sections, then finish *)
Lemma all_out c a : sim c a -> exists s, idle (fst (exec s c)) /\ exists a', sim (fst (exec s c)) a'.
Proof.
  intros S. assert (H : forall n, exists s, (forall tid l b k, tid < n -> nth_error (threads (fst (exec s c))) tid <> Some (Within l b k)) /\ exists a', sim (fst (exec s c)) a').
  { induction n as [|n (s & H & a' & S')]; [exists []; split; [intros; lia|exists a; exact S]|]. destruct (nth_error (threads (fst (exec s c))) n) as [[p|l b k]|] eqn:E.
    - exists s. split; [|eauto]. intros tid l b k Ht. destruct (Nat.eq_dec tid n) as [->|N]; [congruence|apply H; lia].
    - destruct (finish_sect _ _ _ _ _ E) as (s2 & (r & A) & B & C). exists (s ++ s2). rewrite exec_app. cbn [fst]. split.
      + intros tid l' b' k' Ht. destruct (Nat.eq_dec tid n) as [->|N]; [congruence|]. rewrite (B tid N). apply H. lia.
      + destruct (exec s2 (fst (exec s c))) as [c2 a2] eqn:E2. cbn. exists (arun (map fst a2) a'). eapply sim_exec; eauto.
    - exists s. split; [|eauto]. intros tid l b k Ht. destruct (Nat.eq_dec tid n) as [->|N]; [congruence|apply H; lia]. }
  destruct (H (length (threads c))) as (s & Hs & a' & S'). exists s. split; eauto. intros tid l b k E. apply (Hs tid l b k); auto.
  assert (Hlen : forall s (c0 : config), length (threads (fst (exec s c0))) = length (threads c0)).
  { clear. induction s as [|t s IH]; intros c0; [reflexivity|]. rewrite exec_cons, IH. unfold step. destruct (nth_error (threads c0) t) as [[[|l b k]|l [r|f k'] k]|]; cbn; auto; try (rewrite upd_length; auto).
    - destruct (owner c0 l); cbn; auto. now rewrite upd_length.
    - destruct (f (part c0 l)); cbn. now rewrite upd_length. }
  rewrite <- (Hlen s c). apply nth_error_Some. congruence.
Qed.
Lemma can_finish c a : sim c a -> exists s, forall tid t, nth_error (threads (fst (exec s c))) tid = Some t -> t = Out Done.
Proof.
  intros S. destruct (all_out c a S) as (s0 & I0 & a0 & S0). set (c0 := fst (exec s0 c)) in *.
  assert (Ho : forall l, owner c0 l = None). { intros l. destruct (owner c0 l) as [t|] eqn:E; auto. destruct (sim_own _ _ S0 _ _ E) as (b & k & Eb). destruct (I0 _ _ _ _ Eb). }
  assert (H : forall n, exists s, let c' := fst (exec s c0) in (forall tid t, tid < n -> nth_error (threads c') tid = Some t -> t = Out Done) /\ (forall tid, n <= tid -> nth_error (threads c') tid = nth_error (threads c0) tid) /\ (forall l, owner c' l = None)).
  { induction n as [|n (s & A & B & C)]; [exists []; cbn; split; [intros; lia|auto]|]. cbn zeta in *. destruct (nth_error (threads (fst (exec s c0))) n) as [[p|l b k]|] eqn:E.
    - destruct (finish_prog n p _ E C) as (s2 & A2 & B2 & C2). exists (s ++ s2). rewrite exec_app. cbn [fst]. split; [|split; auto].
      + intros tid t Ht Et. destruct (Nat.eq_dec tid n) as [->|N]; [congruence|]. rewrite (B2 tid N) in Et. apply (A tid t); auto. lia.
      + intros tid Ht. rewrite (B2 tid) by lia. apply B. lia.
    - rewrite (B n (le_n n)) in E. destruct (I0 _ _ _ _ E).
    - exists s. split; [|split; auto; intros tid Ht; apply B; lia]. intros tid t Ht Et. destruct (Nat.eq_dec tid n) as [->|N]; [congruence|]. apply (A tid t); auto. lia. }
  destruct (H (length (threads c0))) as (s & A & B & C). exists (s0 ++ s). rewrite exec_app. cbn [fst]. fold c0. intros tid t E. destruct (Nat.lt_ge_cases tid (length (threads c0))) as [Hlt|Hge]; [eapply A; eauto|].
  rewrite (B tid Hge) in E. apply nth_error_None in Hge. congruence.
Qed.
End Machine.
