(** Locks taken in order around every access: no data race and no deadlock. *)
From Coq Require Import List Arith Bool Lia.
From Verif Require Import Base Sched_Proofs Race_Model Race_Spec.
Import ListNotations.

(** ** The discipline: every variable is protected by one mutex or never written, and the mutexes are
    taken in an order *)
Section Discipline.
Variable guard : var -> option mutex.
Variable rank : mutex -> nat.
Definition holds (held : list mutex) (m : mutex) : bool := existsb (fun x => if mutex_eq_dec x m then true else false) held.
(** everything held comes before [m] *)
Definition below (held : list mutex) (m : mutex) : bool := forallb (fun x => rank x <? rank m) held.
Definition may_access (held : list mutex) (v : var) (write : bool) : bool :=
  match guard v with Some m => holds held m | None => negb write end.
Fixpoint ok (held : list mutex) (c : code) : bool :=
  match c with
  | Reads v => may_access held v false
  | Writes v => may_access held v true
  | Lock m c => below held m && ok (m :: held) c
  | Any cs => forallb (ok held) cs
  end.
(** the same for instructions: [Some held'] is what is held at the end *)
Fixpoint check (held : list mutex) (t : list instr) : option (list mutex) :=
  match t with
  | [] => Some held
  | Rd v :: r => if may_access held v false then check held r else None
  | Wr v :: r => if may_access held v true then check held r else None
  | Acq m :: r => if below held m then check (m :: held) r else None
  | Rel m :: r => match held with x :: h => if mutex_eq_dec x m then check h r else None | [] => None end
  end.
Lemma check_app held t u : check held (t ++ u) = match check held t with Some h => check h u | None => None end.
Proof.
  revert held. induction t as [|i t IH]; intros held; auto. destruct i as [m|m|v|v]; cbn.
  - destruct (below held m); auto.
  - destruct held as [|x h]; auto. destruct (mutex_eq_dec x m); auto.
  - destruct (may_access held v false); auto.
  - destruct (may_access held v true); auto.
Qed.
Lemma ok_check c t : trace c t -> forall held, ok held c = true -> check held t = Some held.
Proof.
  induction 1 as [v|v|m c t H IH|cs|cs c t u Hin H IH H' IH']; intros held K; cbn in *.
  - now rewrite K.
  - now rewrite K.
  - apply andb_prop in K. destruct K as (K1 & K2). rewrite K1, check_app, (IH _ K2). cbn. destruct (mutex_eq_dec m m); congruence.
  - reflexivity.
  - rewrite check_app, (IH held); [auto|]. rewrite forallb_forall in K. auto.
Qed.
Lemma calls_check ms t : forallb (ok []) ms = true -> calls ms t -> check [] t = Some [].
Proof.
  intros K. induction 1 as [|c t u Hin H H' IH]; auto. rewrite check_app, (ok_check _ _ H []); auto. rewrite forallb_forall in K. auto.
Qed.

(** the invariant: what the threads hold according to their own history *)
Record inv_with (s : state) (hs : list (list mutex)) : Prop := {
  i_len : length hs = length (rest s);
  i_check : forall tid h t, nth_error hs tid = Some h -> nth_error (rest s) tid = Some t -> check h t = Some [];
  i_held : forall tid h m, nth_error hs tid = Some h -> In m h -> held_by s m = Some tid;
  i_nodup : forall tid h, nth_error hs tid = Some h -> NoDup h;
  i_owner : forall m tid, held_by s m = Some tid -> exists h, nth_error hs tid = Some h /\ In m h
}.
Definition inv (s : state) : Prop := exists hs, inv_with s hs.
Lemma holds_in held m : holds held m = true <-> In m held.
Proof.
  unfold holds. rewrite existsb_exists. split; [intros (x & H & E); destruct (mutex_eq_dec x m); congruence|]. intros H. exists m. split; auto. destruct (mutex_eq_dec m m); congruence.
Qed.
Lemma below_spec held m : below held m = true <-> forall x, In x held -> rank x < rank m.
Proof. unfold below. rewrite forallb_forall. split; intros H x Hx; specialize (H x Hx); now apply Nat.ltb_lt. Qed.
Lemma start_inv ms ts : forallb (ok []) ms = true -> Forall (calls ms) ts -> inv (start ts).
Proof.
  intros K F. exists (map (fun _ => []) ts). split; cbn.
  - now rewrite map_length.
  - intros tid h t E1 E2. rewrite nth_error_map, E2 in E1. injection E1 as <-. apply (calls_check ms); auto. rewrite Forall_forall in F. apply F. eapply nth_error_In; eauto.
  - intros tid h m E1 Hin. rewrite nth_error_map in E1. destruct (nth_error ts tid); [|discriminate]. injection E1 as <-. contradiction.
  - intros tid h E1. rewrite nth_error_map in E1. destruct (nth_error ts tid); [|discriminate]. injection E1 as <-. constructor.
  - discriminate.
Qed.
Ltac at_tid E := rewrite nth_error_upd in E; match type of E with context [Nat.eqb ?a ?b] => destruct (Nat.eqb_spec a b) as [?|?]; [subst b|] end.
Lemma upd_same {A} (l : list A) i x y : nth_error l i = Some y -> nth_error (upd i x l) i = Some x.
Proof. intros E. rewrite nth_error_upd, Nat.eqb_refl, E. reflexivity. Qed.
Lemma upd_other {A} (l : list A) i j x : i <> j -> nth_error (upd i x l) j = nth_error l j.
Proof. intros E. rewrite nth_error_upd. destruct (Nat.eqb_spec i j); [contradiction|reflexivity]. Qed.
Lemma step_inv tid s : inv s -> inv (step tid s).
Proof.
  intros (hs & [L C H D O]). assert (I : inv s) by (exists hs; now split). unfold step. destruct (nth_error (rest s) tid) as [[|i r]|] eqn:Er; auto.
  assert (Hh : exists h, nth_error hs tid = Some h). { destruct (nth_error hs tid) eqn:E; eauto. apply nth_error_None in E. rewrite L in E. apply nth_error_None in E. congruence. }
  destruct Hh as (h & Eh). pose proof (C _ _ _ Eh Er) as K. destruct i as [m|m|v|v]; cbn in K.
  - destruct (held_by s m) as [o|] eqn:Eo; auto. destruct (below h m) eqn:Em; [|discriminate]. exists (upd tid (m :: h) hs). split; cbn.
    + now rewrite !upd_length.
    + intros t h' t' E1 E2. destruct (Nat.eq_dec tid t) as [<-|N].
      * rewrite (upd_same _ _ _ _ Eh) in E1. rewrite (upd_same _ _ _ _ Er) in E2. congruence.
      * rewrite upd_other in E1 by auto. rewrite upd_other in E2 by auto. eauto.
    + intros t h' m' E1 Hin. unfold set_owner. destruct (Nat.eq_dec tid t) as [<-|N].
      * rewrite (upd_same _ _ _ _ Eh) in E1. injection E1 as <-. destruct (mutex_eq_dec m' m) as [->|N]; auto. destruct Hin as [<-|Hin]; [congruence|eauto].
      * rewrite upd_other in E1 by auto. destruct (mutex_eq_dec m' m) as [->|N']; eauto. specialize (H _ _ _ E1 Hin). congruence.
    + intros t h' E1. destruct (Nat.eq_dec tid t) as [<-|N]; [|rewrite upd_other in E1 by auto; eauto]. rewrite (upd_same _ _ _ _ Eh) in E1. injection E1 as <-. constructor; eauto.
      intros Hin. rewrite below_spec in Em. specialize (Em _ Hin). lia.
    + intros m' t. unfold set_owner. destruct (mutex_eq_dec m' m) as [->|N].
      * intros E. injection E as <-. exists (m :: h). split; [eapply upd_same; eauto|now left].
      * intros E. destruct (O _ _ E) as (h' & E' & Hin). destruct (Nat.eq_dec tid t) as [<-|N']; [|exists h'; rewrite upd_other by auto; auto].
        exists (m :: h). split; [eapply upd_same; eauto|]. right. congruence.
  - destruct h as [|x h]; [discriminate|]. destruct (mutex_eq_dec x m) as [->|]; [|discriminate]. pose proof (D _ _ Eh) as ND. inversion ND as [|x' l' Hn Hd]. subst. exists (upd tid h hs). split; cbn.
    + now rewrite !upd_length.
    + intros t h' t' E1 E2. destruct (Nat.eq_dec tid t) as [<-|N].
      * rewrite (upd_same _ _ _ _ Eh) in E1. rewrite (upd_same _ _ _ _ Er) in E2. congruence.
      * rewrite upd_other in E1 by auto. rewrite upd_other in E2 by auto. eauto.
    + intros t h' m' E1 Hin. unfold set_owner. destruct (Nat.eq_dec tid t) as [<-|N].
      * rewrite (upd_same _ _ _ _ Eh) in E1. injection E1 as <-. destruct (mutex_eq_dec m' m) as [->|N]; [contradiction|]. eapply H; eauto. now right.
      * rewrite upd_other in E1 by auto. destruct (mutex_eq_dec m' m) as [->|N']; eauto. pose proof (H _ _ _ E1 Hin) as O1. pose proof (H _ _ m Eh (or_introl eq_refl)) as O2. congruence.
    + intros t h' E1. destruct (Nat.eq_dec tid t) as [<-|N]; [|rewrite upd_other in E1 by auto; eauto]. rewrite (upd_same _ _ _ _ Eh) in E1. now injection E1 as <-.
    + intros m' t. unfold set_owner. destruct (mutex_eq_dec m' m) as [->|N]; [discriminate|]. intros E. destruct (O _ _ E) as (h' & E' & Hin). destruct (Nat.eq_dec tid t) as [<-|N']; [|exists h'; rewrite upd_other by auto; auto].
      exists h. split; [eapply upd_same; eauto|]. assert (h' = m :: h) as -> by congruence. destruct Hin; congruence.
  - destruct (may_access h v false); [|discriminate]. exists hs. split; cbn; auto.
    + now rewrite upd_length.
    + intros t h' t' E1 E2. destruct (Nat.eq_dec tid t) as [<-|N]; [|rewrite upd_other in E2 by auto; eauto]. rewrite (upd_same _ _ _ _ Er) in E2. congruence.
  - destruct (may_access h v true); [|discriminate]. exists hs. split; cbn; auto.
    + now rewrite upd_length.
    + intros t h' t' E1 E2. destruct (Nat.eq_dec tid t) as [<-|N]; [|rewrite upd_other in E2 by auto; eauto]. rewrite (upd_same _ _ _ _ Er) in E2. congruence.
Qed.
Lemma exec_inv sched : forall s, inv s -> inv (exec sched s).
Proof. induction sched as [|t r IH]; intros s I; auto. cbn. apply IH. now apply step_inv. Qed.
Lemma inv_no_race s : inv s -> ~ race s.
Proof.
  intros (hs & [L C H D O]) (t1 & t2 & i1 & i2 & r1 & r2 & v & w1 & w2 & N & E1 & E2 & A1 & A2 & W).
  assert (Hacc : forall t i r w, nth_error (rest s) t = Some (i :: r) -> access i = Some (v, w) -> exists h, nth_error hs t = Some h /\ may_access h v w = true).
  { intros t i r w E A. destruct (nth_error hs t) as [h|] eqn:Eh; [|apply nth_error_None in Eh; rewrite L in Eh; apply nth_error_None in Eh; congruence]. exists h. split; auto. pose proof (C _ _ _ Eh E) as K.
    destruct i as [m|m|v'|v']; try discriminate; injection A as -> <-; cbn in K; destruct (may_access h v _); auto; discriminate. }
  destruct (Hacc _ _ _ _ E1 A1) as (h1 & Eh1 & M1). destruct (Hacc _ _ _ _ E2 A2) as (h2 & Eh2 & M2). unfold may_access in M1, M2. destruct (guard v) as [m|].
  - apply holds_in in M1, M2. pose proof (H _ _ _ Eh1 M1). pose proof (H _ _ _ Eh2 M2). congruence.
  - destruct w1, w2; discriminate.
Qed.
Lemma discipline ms : forallb (ok []) ms = true -> race_free ms.
Proof. intros K ts sched F. apply inv_no_race. apply exec_inv. now apply (start_inv ms). Qed.

(** *** Progress: some thread can make a step *)
Definition enabled (s : state) (tid : nat) : Prop :=
  exists i r, nth_error (rest s) tid = Some (i :: r) /\ rest (step tid s) = upd tid r (rest s).
Lemma enabled_or_waits s tid i r : nth_error (rest s) tid = Some (i :: r) ->
  enabled s tid \/ exists m o, i = Acq m /\ held_by s m = Some o.
Proof.
  intros E. destruct i as [m|m|v|v].
  - destruct (held_by s m) as [o|] eqn:Eo; [right; eauto|]. left. exists (Acq m), r. split; auto. unfold step. now rewrite E, Eo.
  - left. exists (Rel m), r. split; auto. unfold step. now rewrite E.
  - left. exists (Rd v), r. split; auto. unfold step. now rewrite E.
  - left. exists (Wr v), r. split; auto. unfold step. now rewrite E.
Qed.
(** follow the owners: each waits for a mutex of a higher rank *)
Fixpoint max_rank (l : list (list instr)) : nat :=
  match l with [] => 0 | t :: r => Nat.max (match t with Acq m :: _ => rank m | _ => 0 end) (max_rank r) end.
Lemma max_rank_spec l t m r : nth_error l t = Some (Acq m :: r) -> rank m <= max_rank l.
Proof. revert t. induction l as [|x l IH]; intros [|t] E; try discriminate; cbn in *; [injection E as ->; lia|]. apply IH in E. lia. Qed.
Lemma chain s hs n : inv_with s hs -> forall tid m r o, nth_error (rest s) tid = Some (Acq m :: r) -> held_by s m = Some o -> max_rank (rest s) - rank m <= n -> exists t, enabled s t.
Proof.
  intros [L C H D O]. induction n as [|n IH]; intros tid m r o E Eo K.
  - destruct (O _ _ Eo) as (h & Eh & Hin). destruct (nth_error (rest s) o) as [t|] eqn:Et; [|apply nth_error_None in Et; rewrite <- L in Et; apply nth_error_None in Et; congruence]. pose proof (C _ _ _ Eh Et) as Kc.
    destruct t as [|i t]; [injection Kc as ->; contradiction|]. destruct (enabled_or_waits _ _ _ _ Et) as [En|(m' & o' & -> & Eo')]; [eauto|]. cbn in Kc. destruct (below h m') eqn:Eb; [|discriminate]. rewrite below_spec in Eb. specialize (Eb _ Hin).
    apply max_rank_spec in Et. lia.
  - destruct (O _ _ Eo) as (h & Eh & Hin). destruct (nth_error (rest s) o) as [t|] eqn:Et; [|apply nth_error_None in Et; rewrite <- L in Et; apply nth_error_None in Et; congruence]. pose proof (C _ _ _ Eh Et) as Kc.
    destruct t as [|i t]; [injection Kc as ->; contradiction|]. destruct (enabled_or_waits _ _ _ _ Et) as [En|(m' & o' & -> & Eo')]; [eauto|]. cbn in Kc. destruct (below h m') eqn:Eb; [|discriminate]. rewrite below_spec in Eb. specialize (Eb _ Hin).
    pose proof (max_rank_spec _ _ _ _ Et). apply (IH o m' t o' Et Eo'). lia.
Qed.
Definition size (l : list (list instr)) : nat := list_sum (map (@length instr) l).
Lemma size_upd l tid i r : nth_error l tid = Some (i :: r) -> size l = S (size (upd tid r l)).
Proof. revert tid. unfold size. induction l as [|x l IH]; intros [|tid] E; try discriminate; cbn in *; [injection E as ->; reflexivity|]. specialize (IH _ E). unfold list_sum in *. lia. Qed.
Lemma progress s : inv s -> size (rest s) <> 0 -> exists t, enabled s t.
Proof.
  intros (hs & I) N. assert (Hne : exists tid i r, nth_error (rest s) tid = Some (i :: r)).
  { clear I. induction (rest s) as [|[|i r] l IH]; [now cbn in N| |exists 0, i, r; reflexivity]. destruct IH as (tid & i & r & E); auto. exists (S tid), i, r. auto. }
  destruct Hne as (tid & i & r & E). destruct (enabled_or_waits _ _ _ _ E) as [En|(m & o & -> & Eo)]; eauto. eapply chain; eauto.
Qed.
Lemma finish n : forall s, inv s -> size (rest s) = n -> exists more, Forall (fun r => r = []) (rest (exec more s)).
Proof.
  induction n as [|n IH]; intros s I Es.
  - exists []. cbn. clear I. revert Es. unfold size. induction (rest s) as [|[|i r] l IHl]; cbn; intros E; [constructor| |discriminate]. constructor; auto.
  - destruct (progress s I ltac:(lia)) as (t & i & r & Et & En). destruct (IH (step t s)) as (more & F).
    + now apply step_inv.
    + rewrite En. rewrite (size_upd _ _ _ _ Et) in Es. lia.
    + exists (t :: more). exact F.
Qed.
Lemma discipline_deadlock ms : forallb (ok []) ms = true -> deadlock_free ms.
Proof. intros K ts sched F. apply (finish _ _ (exec_inv sched _ (start_inv ms ts K F)) eq_refl). Qed.
End Discipline.

(** ** Networks *)
(** which mutex protects what; the others are not written by the methods concerned *)
Definition guards (v : var) : option mutex :=
  let '(o, x) := v in
  match x with
  | Callbacks => Some (o, Ksig) | DropCallbacks => Some (o, Kdrop)
  | Deque | Messages | LastTime | Tuples | LastSignalTime | Search | Events | Rates | EventQueues | LastTs => Some (o, Kobj)
  | _ => None
  end.
(** the order: along the connections, and in an object the mutex of the filter before that of its signal *)
Definition rank (m : mutex) : nat := let '(o, k) := m in 3 * o + match k with Kobj => 0 | Ksig => 1 | Kdrop => 2 end.

Definition before (held : list mutex) (o : nat) : Prop := forall x, In x held -> rank x < 3 * o.
Lemma before_below held o k : before held o -> below rank held (o, k) = true.
Proof. intros H. apply below_spec. intros x Hx. specialize (H x Hx). cbn. lia. Qed.
Lemma before_cons held o o' k : before held o -> o < o' -> before ((o, k) :: held) o'.
Proof. intros H L x [<-|Hx]; [cbn; destruct k; lia|]. specialize (H x Hx). lia. Qed.
Lemma ksig_below held o : before held o -> below rank ((o, Kobj) :: held) (o, Ksig) = true.
Proof. intros H. apply below_spec. intros x [<-|Hx]; [cbn; lia|]. specialize (H x Hx). cbn. lia. Qed.
Lemma kdrop_below held o : before held o -> below rank ((o, Kobj) :: held) (o, Kdrop) = true.
Proof. intros H. apply below_spec. intros x [<-|Hx]; [cbn; lia|]. specialize (H x Hx). cbn. lia. Qed.
Lemma holds_head o k held : holds ((o, k) :: held) (o, k) = true.
Proof. apply holds_in. now left. Qed.

Section Methods.
Variables (o : nat) (down : list code).
(** what the callbacks do is in order whatever is held before them *)
Hypothesis Hdown : forall held, (forall x, In x held -> rank x < 3 * S o) -> forallb (ok guards rank held) down = true.
Ltac side := first [assumption | apply before_below; assumption | apply ksig_below; assumption | apply kdrop_below; assumption].
Ltac crunch := unfold locked, changes, reads, writes; cbn -[below holds rank]; rewrite ?holds_head; cbn -[below holds rank]; rewrite ?andb_true_r, ?andb_true_iff.
Lemma ok_call held : below rank held (o, Ksig) = true -> (forall x, In x held -> rank x < 3 * S o) -> ok guards rank held (call o down) = true.
Proof.
  intros B H. unfold call. crunch. split; auto. apply Hdown. intros x [<-|Hx]; [cbn; lia|auto].
Qed.
Lemma call_outer held : before held o -> ok guards rank held (call o down) = true.
Proof. intros H. apply ok_call; [now apply before_below|]. intros x Hx. specialize (H x Hx). lia. Qed.
Lemma call_inner held : before held o -> ok guards rank ((o, Kobj) :: held) (call o down) = true.
Proof. intros H. apply ok_call; [now apply ksig_below|]. intros x [<-|Hx]; [cbn; lia|]. specialize (H x Hx). lia. Qed.
Lemma ok_register held : before held o -> ok guards rank held (register o) = true.
Proof. intros H. unfold register. crunch. now apply before_below. Qed.
Opaque call.
Lemma ok_add k held : before held o -> ok guards rank held (add_of k o down) = true.
Proof.
  intros H. pose proof (call_inner held H) as HC. pose proof (call_outer held H) as HO. destruct k; cbn [add_of]; unfold pass_add, cache_add, seq_add, exact_add, approx_add, eps_add, latest_add, aligner_add; auto; crunch; repeat split; try side.
Qed.
Lemma ok_others k held : before held o -> forallb (ok guards rank held) (others k o down) = true.
Proof.
  intros H. pose proof (call_inner held H) as HC. pose proof (call_outer held H) as HO. pose proof (ok_register held H) as HR. unfold others. cbn [forallb]. rewrite HR. cbn [andb].
  destruct k; auto; unfold cache_query, seq_dispatch, exact_register_drop, aligner_dispatch; crunch; repeat split; try side.
Qed.
Transparent call.
End Methods.
Lemma ok_entry n : acyclic n -> forall depth held o, before held o -> ok guards rank held (entry depth n o) = true.
Proof.
  intros A. induction depth as [|d IH]; intros held o H; [reflexivity|]. cbn [entry]. destruct (nth_error n o) as [[k l]|] eqn:E; [|reflexivity]. apply ok_add; auto.
  intros held' H'. apply forallb_forall. intros c Hc. apply in_map_iff in Hc. destruct Hc as (o' & <- & Ho). apply IH. specialize (A _ _ _ _ E Ho). intros x Hx. specialize (H' x Hx). lia.
Qed.
Lemma ok_methods n depth : acyclic n -> forallb (ok guards rank []) (methods depth n) = true.
Proof.
  intros A. apply forallb_forall. intros c Hc. unfold methods in Hc. apply in_flat_map in Hc. destruct Hc as (o & _ & Hc). destruct (nth_error n o) as [[k l]|] eqn:E; [|contradiction].
  assert (B : before [] o) by (intros x []). destruct Hc as [<-|Hc]; [now apply ok_entry|]. assert (K : forallb (ok guards rank []) (others k o (map (entry depth n) l)) = true).
  2: { rewrite forallb_forall in K. auto. }
  apply ok_others; auto. intros held' H'. apply forallb_forall. intros c' Hc'. apply in_map_iff in Hc'. destruct Hc' as (o' & <- & Ho). apply ok_entry; auto. specialize (A _ _ _ _ E Ho). intros x Hx. specialize (H' x Hx). lia.
Qed.
