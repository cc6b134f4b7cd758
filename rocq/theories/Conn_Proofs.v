(** Invariants of the executions of Conn_Model. *)
From Coq Require Import List Arith Lia Bool.
From Verif Require Import Base Sched_Proofs Conn_Model Conn_Spec.
Import ListNotations.

Section Proofs.
Context {C M : Type}.
Notation op := (op C M).
Notation phase := (phase C M).
Notation state := (state C M).
Notation event := (event C M).

Definition holding (p : phase) : bool := match p with Idle | Waiting _ => false | _ => true end.
Definition ids (s : state) : list nat := map fst (callbacks s).
Definition cur_op (p : phase) : option op :=
  match p with
  | Idle => None
  | Waiting o => Some o
  | Emitting m _ _ => Some (Emit m)
  | Registering c => Some (Register c)
  | Disconnecting k => Some (Disconnect k)
  | Leaving o _ => Some o
  end.
(** the calls of callbacks by thread [t] since it last entered a call *)
Definition cur1 (t : nat) (acc : list (nat * M)) (e : event) : list (nat * M) :=
  match e with
  | Invoked t' _ => if Nat.eqb t' t then [] else acc
  | Began t' k m => if Nat.eqb t' t then acc ++ [(k, m)] else acc
  | _ => acc
  end.
Definition cur (t : nat) (tr : list event) : list (nat * M) := fold_left (cur1 t) tr [].
Definition now (s : state) (p : phase) (l : list (nat * M)) : Prop :=
  match p with
  | Idle => True
  | Waiting _ => l = []
  | Emitting m i b => l = map (fun k => (k, m)) (firstn (if b then S i else i) (ids s))
  | Registering _ | Disconnecting _ => True
  | Leaving (Emit m) _ => l = map (fun k => (k, m)) (ids s)
  | Leaving _ _ => True
  end.

Record Inv (s : state) (tr : list event) : Prop := mkInv {
  i_own : forall t p l, nth_error (threads s) t = Some (p, l) -> (holding p = true <-> owner s = Some t);
  i_range : forall t, owner s = Some t -> exists p l, nth_error (threads s) t = Some (p, l);
  i_nodup : NoDup (ids s);
  i_next : forall k, In k (ids s) -> k < next s;
  i_ret : forall t k r, In (Returned t (Disconnect k) r) tr -> ~ In k (ids s) /\ k < next s;
  i_pre : forall t p l k, nth_error (threads s) t = Some (p, l) -> cur_op p = Some (Disconnect k) -> k < next s;
  i_leave : forall t l k r, nth_error (threads s) t = Some (Leaving (Disconnect k) r, l) -> ~ In k (ids s);
  i_run : forall a b t k m, tr = a ++ Began t k m :: b -> In (Ended t k m) b \/
            exists l i c, nth_error (threads s) t = Some (Emitting m i true, l) /\ nth_error (callbacks s) i = Some (k, c);
  i_conn : forall k, connected k tr -> In k (ids s) \/ ~ not_disconnected k tr;
  i_reg : forall t l c k, nth_error (threads s) t = Some (Leaving (Register c) (Some k), l) -> In k (ids s) \/ ~ not_disconnected k tr;
  i_inv : forall t p l o, nth_error (threads s) t = Some (p, l) -> cur_op p = Some o -> In (Invoked t o) tr;
  i_now : forall t p l, nth_error (threads s) t = Some (p, l) -> now s p (cur t tr);
  i_one : one_at_a_time tr
}.

Lemma cur_snoc t tr e : cur t (tr ++ [e]) = cur1 t (cur t tr) e.
Proof. unfold cur. now rewrite fold_left_app. Qed.

Lemma snoc_split {A} (tr : list A) e a x b :
  tr ++ [e] = a ++ x :: b -> (exists b', b = b' ++ [e] /\ tr = a ++ x :: b') \/ (b = [] /\ a = tr /\ x = e).
Proof.
  destruct b as [|y b] using rev_ind; intros H.
  - right. apply app_inj_tail in H as [-> ->]. auto.
  - left. clear IHb. exists b. change (a ++ x :: b ++ [y]) with (a ++ (x :: b) ++ [y]) in H. rewrite app_assoc in H.
    apply app_inj_tail in H as [-> ->]. auto.
Qed.

Lemma not_disc_snoc k (tr : list event) e : ~ not_disconnected k tr -> ~ not_disconnected k (tr ++ [e]).
Proof. intros H K. apply H. intros t Ht. apply (K t). apply in_or_app. auto. Qed.
Lemma connected_snoc k (tr : list event) e : connected k (tr ++ [e]) -> connected k tr \/ exists t c, e = Returned t (Register c) (Some k).
Proof. intros (t & c & H). apply in_app_or in H as [H|[H|[]]]; [left; exists t, c; auto|right; eauto]. Qed.

Lemma in_erase k x (l : list (nat * C)) : In x (map fst (erase k l)) -> In x (map fst l).
Proof.
  induction l as [|y l IH]; cbn; auto. destruct (Nat.eqb (fst y) k); cbn; auto. intros [H|H]; auto.
Qed.
Lemma erase_nodup k (l : list (nat * C)) : NoDup (map fst l) -> NoDup (map fst (erase k l)).
Proof.
  induction l as [|y l IH]; cbn; auto. intros H. inversion H; subst. destruct (Nat.eqb (fst y) k); cbn; auto.
  constructor; auto. intros K. apply in_erase in K. auto.
Qed.
Lemma erase_gone k (l : list (nat * C)) : NoDup (map fst l) -> ~ In k (map fst (erase k l)).
Proof.
  induction l as [|y l IH]; cbn; auto. intros H. inversion H; subst. destruct (Nat.eqb_spec (fst y) k) as [<-|N]; cbn; auto.
  intros [K|K]; [auto|]. apply IH in K; auto.
Qed.
Lemma erase_other k x (l : list (nat * C)) : x <> k -> In x (map fst l) -> In x (map fst (erase k l)).
Proof.
  intros N. induction l as [|y l IH]; cbn; auto. destruct (Nat.eqb_spec (fst y) k) as [<-|N']; cbn.
  - intros [H|H]; auto. congruence.
  - intros [H|H]; auto.
Qed.

Lemma firstn_snoc_nth {A} (l : list A) i x : nth_error l i = Some x -> firstn (S i) l = firstn i l ++ [x].
Proof. revert i. induction l as [|y l IH]; intros [|i] H; cbn in *; try discriminate; [congruence|]. now rewrite <- (IH i H). Qed.

(** what a step does *)
Inductive Step (t : nat) (s : state) : state -> list event -> Prop :=
| S_invoke o l : nth_error (threads s) t = Some (Idle, o :: l) -> exists_yet s o = true ->
    Step t s (mkState (owner s) (callbacks s) (next s) (upd t (Waiting o, l) (threads s))) [Invoked t o]
| S_lock o l : nth_error (threads s) t = Some (Waiting o, l) -> owner s = None ->
    Step t s (mkState (Some t) (callbacks s) (next s) (upd t (enter o, l) (threads s))) []
| S_end m i l k c : nth_error (threads s) t = Some (Emitting m i true, l) -> nth_error (callbacks s) i = Some (k, c) ->
    Step t s (mkState (owner s) (callbacks s) (next s) (upd t (Emitting m (S i) false, l) (threads s))) [Ended t k m]
| S_begin m i l k c : nth_error (threads s) t = Some (Emitting m i false, l) -> nth_error (callbacks s) i = Some (k, c) ->
    Step t s (mkState (owner s) (callbacks s) (next s) (upd t (Emitting m i true, l) (threads s))) [Began t k m]
| S_done m i b l : nth_error (threads s) t = Some (Emitting m i b, l) -> nth_error (callbacks s) i = None ->
    Step t s (mkState (owner s) (callbacks s) (next s) (upd t (Leaving (Emit m) None, l) (threads s))) []
| S_reg c l : nth_error (threads s) t = Some (Registering c, l) ->
    Step t s (mkState (owner s) (callbacks s ++ [(next s, c)]) (S (next s)) (upd t (Leaving (Register c) (Some (next s)), l) (threads s))) []
| S_disc k l : nth_error (threads s) t = Some (Disconnecting k, l) ->
    Step t s (mkState (owner s) (erase k (callbacks s)) (next s) (upd t (Leaving (Disconnect k) None, l) (threads s))) []
| S_leave o r l : nth_error (threads s) t = Some (Leaving o r, l) ->
    Step t s (mkState None (callbacks s) (next s) (upd t (Idle, l) (threads s))) [Returned t o r]
| S_stay : Step t s s [].

Lemma step_Step t s : Step t s (fst (step t s)) (snd (step t s)).
Proof.
  unfold step, goto. destruct (nth_error (threads s) t) as [[p l]|] eqn:H; [|constructor].
  destruct p as [|o|m i inside|c|k|o r].
  - destruct l as [|o l]; [constructor|]. destruct (exists_yet s o) eqn:E; [|constructor]. cbn [fst snd]. now apply S_invoke.
  - destruct (owner s) eqn:E; [constructor|]. cbn [fst snd]. now apply S_lock.
  - destruct (nth_error (callbacks s) i) as [[k c]|] eqn:E.
    + destruct inside; cbn [fst snd]; [eapply S_end|eapply S_begin]; eauto.
    + cbn [fst snd]. eapply S_done; eauto.
  - cbn [fst snd]. now apply S_reg.
  - cbn [fst snd]. now apply S_disc.
  - cbn [fst snd]. now apply S_leave.
Qed.

Lemma Inv_start calls : Inv (start calls) [].
Proof.
  assert (HT : forall t p l, nth_error (threads (start calls)) t = Some (p, l) -> p = Idle).
  { intros t p l H. cbn in H. apply nth_error_In, in_map_iff in H as (x & E & _). congruence. }
  constructor.
  - intros t p l H. rewrite (HT _ _ _ H). cbn. split; discriminate.
  - discriminate.
  - constructor.
  - intros k [].
  - intros t k r [].
  - intros t p l k H E. rewrite (HT _ _ _ H) in E. discriminate.
  - intros t l k r H. apply HT in H. discriminate.
  - intros a b t k m H. destruct a; discriminate.
  - intros k (t & c & []).
  - intros t l c k H. apply HT in H. discriminate.
  - intros t p l o H E. rewrite (HT _ _ _ H) in E. discriminate.
  - intros t p l H. rewrite (HT _ _ _ H). exact I.
  - intros a b c t k m t' k' m' H. destruct a; discriminate.
Qed.

(** a thread other than the owner holds nothing *)
Lemma sole_owner s tr t p l t' p' l' : Inv s tr ->
  nth_error (threads s) t = Some (p, l) -> holding p = true -> nth_error (threads s) t' = Some (p', l') -> holding p' = true -> t' = t.
Proof.
  intros HI H1 P1 H2 P2. apply (i_own _ _ HI _ _ _ H1) in P1. apply (i_own _ _ HI _ _ _ H2) in P2. congruence.
Qed.

Ltac look H := rewrite nth_error_upd in H;
  match type of H with context [Nat.eqb ?a ?b] => destruct (Nat.eqb_spec a b) as [?Eq|?Ne] end;
  [subst; match goal with K : nth_error (threads _) _ = Some _ |- _ => rewrite K in H end; first [discriminate H | injection H; clear H; intros; subst]|].


Lemma Inv_step t s tr s' e : Inv s tr -> Step t s s' e -> Inv s' (tr ++ e).
Proof.
  intros HI HS. destruct HS as [o l H E|o l H E|m i l k c H E|m i l k c H E|m i b l H E|c l H|k l H|o r l H|].
  9: { now rewrite app_nil_r. }
  - (* invoke *)
    constructor; cbn.
    + intros t' p' l' K. look K; [|now apply (i_own _ _ HI _ _ _ K)]. apply (i_own _ _ HI _ _ _ H).
    + intros t' K. destruct (i_range _ _ HI _ K) as (p & l' & Hp). rewrite nth_error_upd. destruct (Nat.eqb_spec t t').
      * subst. rewrite H. eauto.
      * eauto.
    + apply (i_nodup _ _ HI).
    + apply (i_next _ _ HI).
    + intros t' k r K. apply in_app_or in K as [K|[K|[]]]; [|discriminate]. apply (i_ret _ _ HI _ _ _ K).
    + intros t' p' l' k K Ec. look K; [|apply (i_pre _ _ HI _ _ _ _ K Ec)]. cbn in Ec. injection Ec as ->. cbn in E.
      now apply Nat.ltb_lt.
    + intros t' l' k r K. look K. apply (i_leave _ _ HI _ _ _ _ K).
    + intros a b' t' k m K. apply snoc_split in K as [(b1 & -> & K)|(-> & -> & K)]; [|discriminate].
      destruct (i_run _ _ HI _ _ _ _ _ K) as [R|(l' & i & c & R1 & R2)]; [left; apply in_or_app; auto|].
      right. exists l', i, c. split; auto. rewrite nth_error_upd. destruct (Nat.eqb_spec t t'); auto. subst. congruence.
    + intros k K. apply connected_snoc in K as [K|(t' & c & K)]; [|discriminate].
      destruct (i_conn _ _ HI _ K); auto. right. now apply not_disc_snoc.
    + intros t' l' c k K. look K. destruct (i_reg _ _ HI _ _ _ _ K); auto. right. now apply not_disc_snoc.
    + intros t' p' l' o' K Ec. apply in_or_app. look K; [|left; apply (i_inv _ _ HI _ _ _ _ K Ec)].
      cbn in Ec. injection Ec as ->. cbn. auto.
    + intros t' p' l' K. rewrite cur_snoc. cbn. look K.
      * reflexivity.
      * apply (i_now _ _ HI _ _ _ K).
    + intros a b c t1 k m t2 k2 m2 K. rewrite app_comm_cons, app_assoc in K.
      apply snoc_split in K as [(b1 & -> & K)|(-> & K1 & K)]; [|discriminate].
      rewrite <- app_assoc in K. apply (i_one _ _ HI _ _ _ _ _ _ _ _ _ K).
  - (* lock *)
    rewrite app_nil_r. assert (NH : forall t' p' l', nth_error (threads s) t' = Some (p', l') -> holding p' = false).
    { intros t' p' l' K. destruct (holding p') eqn:P; auto. apply (i_own _ _ HI _ _ _ K) in P. congruence. }
    assert (HE : holding (enter o) = true) by (destruct o; reflexivity).
    constructor; cbn.
    + intros t' p' l' K. look K; [rewrite HE; tauto|]. rewrite (NH _ _ _ K). split; [discriminate|congruence].
    + intros t' K. injection K as <-. rewrite nth_error_upd, Nat.eqb_refl, H. eauto.
    + apply (i_nodup _ _ HI).
    + apply (i_next _ _ HI).
    + apply (i_ret _ _ HI).
    + intros t' p' l' k K Ec. look K; [|apply (i_pre _ _ HI _ _ _ _ K Ec)].
      apply (i_pre _ _ HI _ _ _ k H). destruct o; cbn in Ec |- *; congruence.
    + intros t' l' k r K. look K; [destruct o; discriminate|]. apply (i_leave _ _ HI _ _ _ _ K).
    + intros a b' t' k m K. destruct (i_run _ _ HI _ _ _ _ _ K) as [R|(l' & i & c & R1 & R2)]; auto.
      apply NH in R1. discriminate.
    + apply (i_conn _ _ HI).
    + intros t' l' c k K. look K; [destruct o; discriminate|]. apply (i_reg _ _ HI _ _ _ _ K).
    + intros t' p' l' o' K Ec. look K; [|apply (i_inv _ _ HI _ _ _ _ K Ec)].
      apply (i_inv _ _ HI _ _ _ o' H). destruct o; cbn in Ec |- *; congruence.
    + intros t' p' l' K. look K; [|apply (i_now _ _ HI _ _ _ K)]. pose proof (i_now _ _ HI _ _ _ H) as N. cbn in N.
      destruct o; cbn; auto.
    + apply (i_one _ _ HI).
  - (* callback ends *)
    pose proof (i_own _ _ HI _ _ _ H) as OW. cbn in OW. assert (OW' : owner s = Some t) by tauto.
    constructor; cbn.
    + intros t' p' l' K. look K; [cbn; tauto|]. apply (i_own _ _ HI _ _ _ K).
    + intros t' K. rewrite nth_error_upd. destruct (Nat.eqb_spec t t'); [subst; rewrite H; eauto|apply (i_range _ _ HI _ K)].
    + apply (i_nodup _ _ HI).
    + apply (i_next _ _ HI).
    + intros t' k' r K. apply in_app_or in K as [K|[K|[]]]; [|discriminate]. apply (i_ret _ _ HI _ _ _ K).
    + intros t' p' l' k' K Ec. look K; [discriminate|apply (i_pre _ _ HI _ _ _ _ K Ec)].
    + intros t' l' k' r K. look K. apply (i_leave _ _ HI _ _ _ _ K).
    + intros a b' t' k' m' K. apply snoc_split in K as [(b1 & -> & K)|(-> & -> & K)]; [|discriminate].
      destruct (i_run _ _ HI _ _ _ _ _ K) as [R|(l' & i' & c' & R1 & R2)]; [left; apply in_or_app; auto|].
      destruct (Nat.eq_dec t' t) as [->|N].
      * rewrite H in R1. injection R1 as <- <- <-. rewrite E in R2. injection R2 as <- <-. left. apply in_or_app. cbn. auto.
      * right. exists l', i', c'. split; auto. rewrite nth_error_upd. destruct (Nat.eqb_spec t t'); congruence.
    + intros k' K. apply connected_snoc in K as [K|(t' & c' & K)]; [|discriminate].
      destruct (i_conn _ _ HI _ K); auto. right. now apply not_disc_snoc.
    + intros t' l' c' k' K. look K. destruct (i_reg _ _ HI _ _ _ _ K); auto. right. now apply not_disc_snoc.
    + intros t' p' l' o' K Ec. apply in_or_app. left. look K; [|apply (i_inv _ _ HI _ _ _ _ K Ec)].
      apply (i_inv _ _ HI _ _ _ o' H). exact Ec.
    + intros t' p' l' K. rewrite cur_snoc. cbn [cur1]. look K; [|apply (i_now _ _ HI _ _ _ K)].
      apply (i_now _ _ HI _ _ _ H).
    + intros a b c' t1 k1 m1 t2 k2 m2 K. rewrite app_comm_cons, app_assoc in K.
      apply snoc_split in K as [(b1 & -> & K)|(-> & K1 & K)]; [|discriminate].
      rewrite <- app_assoc in K. apply (i_one _ _ HI _ _ _ _ _ _ _ _ _ K).
  - (* callback begins *)
    pose proof (i_own _ _ HI _ _ _ H) as OW. cbn in OW. assert (OW' : owner s = Some t) by tauto.
    constructor; cbn.
    + intros t' p' l' K. look K; [cbn; tauto|]. apply (i_own _ _ HI _ _ _ K).
    + intros t' K. rewrite nth_error_upd. destruct (Nat.eqb_spec t t'); [subst; rewrite H; eauto|apply (i_range _ _ HI _ K)].
    + apply (i_nodup _ _ HI).
    + apply (i_next _ _ HI).
    + intros t' k' r K. apply in_app_or in K as [K|[K|[]]]; [|discriminate]. apply (i_ret _ _ HI _ _ _ K).
    + intros t' p' l' k' K Ec. look K; [discriminate|apply (i_pre _ _ HI _ _ _ _ K Ec)].
    + intros t' l' k' r K. look K. apply (i_leave _ _ HI _ _ _ _ K).
    + intros a b' t' k' m' K. apply snoc_split in K as [(b1 & -> & K)|(-> & -> & K)].
      * destruct (i_run _ _ HI _ _ _ _ _ K) as [R|(l' & i' & c' & R1 & R2)]; [left; apply in_or_app; auto|].
        assert (t' = t) by (eapply sole_owner; eauto; reflexivity). subst. congruence.
      * injection K as -> -> ->. right. exists l, i, c. split; auto. now rewrite nth_error_upd, Nat.eqb_refl, H.
    + intros k' K. apply connected_snoc in K as [K|(t' & c' & K)]; [|discriminate].
      destruct (i_conn _ _ HI _ K); auto. right. now apply not_disc_snoc.
    + intros t' l' c' k' K. look K. destruct (i_reg _ _ HI _ _ _ _ K); auto. right. now apply not_disc_snoc.
    + intros t' p' l' o' K Ec. apply in_or_app. left. look K; [|apply (i_inv _ _ HI _ _ _ _ K Ec)].
      apply (i_inv _ _ HI _ _ _ o' H). exact Ec.
    + intros t' p' l' K. rewrite cur_snoc. cbn [cur1]. look K.
      * pose proof (i_now _ _ HI _ _ _ H) as N. cbn [now] in N |- *. rewrite N.
        change (map (fun k0 => (k0, m)) (firstn i (ids s)) ++ [(k, m)] = map (fun k0 => (k0, m)) (firstn (S i) (ids s))).
        erewrite firstn_snoc_nth by (unfold ids; apply (map_nth_error fst), E). now rewrite map_app.
      * apply (i_now _ _ HI _ _ _ K).
    + intros a b c' t1 k1 m1 t2 k2 m2 K. rewrite app_comm_cons, app_assoc in K.
      apply snoc_split in K as [(b1 & -> & K)|(-> & K & K2)].
      * rewrite <- app_assoc in K. apply (i_one _ _ HI _ _ _ _ _ _ _ _ _ K).
      * destruct (i_run _ _ HI _ _ _ _ _ (eq_sym K)) as [R|(l' & i' & c2 & R1 & R2)]; auto.
        assert (t1 = t) by (eapply sole_owner; eauto; reflexivity). subst. congruence.
  - (* emission done *)
    rewrite app_nil_r. constructor; cbn.
    + intros t' p' l' K. look K; [apply (i_own _ _ HI _ _ _ H)|]. apply (i_own _ _ HI _ _ _ K).
    + intros t' K. rewrite nth_error_upd. destruct (Nat.eqb_spec t t'); [subst; rewrite H; eauto|apply (i_range _ _ HI _ K)].
    + apply (i_nodup _ _ HI).
    + apply (i_next _ _ HI).
    + apply (i_ret _ _ HI).
    + intros t' p' l' k' K Ec. look K; [discriminate|apply (i_pre _ _ HI _ _ _ _ K Ec)].
    + intros t' l' k' r K. look K. apply (i_leave _ _ HI _ _ _ _ K).
    + intros a b' t' k' m' K. destruct (i_run _ _ HI _ _ _ _ _ K) as [R|(l' & i' & c' & R1 & R2)]; auto.
      destruct (Nat.eq_dec t' t) as [->|N]; [congruence|].
      right. exists l', i', c'. split; auto. rewrite nth_error_upd. destruct (Nat.eqb_spec t t'); congruence.
    + apply (i_conn _ _ HI).
    + intros t' l' c' k' K. look K. apply (i_reg _ _ HI _ _ _ _ K).
    + intros t' p' l' o' K Ec. look K; [|apply (i_inv _ _ HI _ _ _ _ K Ec)].
      apply (i_inv _ _ HI _ _ _ o' H). exact Ec.
    + intros t' p' l' K. look K; [|apply (i_now _ _ HI _ _ _ K)].
      pose proof (i_now _ _ HI _ _ _ H) as N. cbn [now] in N |- *. rewrite N. f_equal. apply firstn_all2.
      unfold ids. rewrite map_length. apply nth_error_None in E. cbn [callbacks]. destruct b; lia.
    + apply (i_one _ _ HI).
  - (* registered *)
    rewrite app_nil_r. assert (IDS : ids (mkState (owner s) (callbacks s ++ [(next s, c)]) (S (next s)) (upd t (Leaving (Register c) (Some (next s)), l) (threads s))) = ids s ++ [next s]).
    { unfold ids. cbn. now rewrite map_app. }
    assert (SOLE : forall t' p' l', t' <> t -> nth_error (threads s) t' = Some (p', l') -> holding p' = false).
    { intros t' p' l' N K. destruct (holding p') eqn:P; auto. exfalso. apply N. eapply sole_owner; eauto; reflexivity. }
    constructor; cbn [threads owner next callbacks].
    + intros t' p' l' K. look K; [apply (i_own _ _ HI _ _ _ H)|]. apply (i_own _ _ HI _ _ _ K).
    + intros t' K. rewrite nth_error_upd. destruct (Nat.eqb_spec t t'); [subst; rewrite H; eauto|apply (i_range _ _ HI _ K)].
    + rewrite IDS. apply NoDup_Add with (a := next s) (l := ids s).
      { rewrite <- (app_nil_r (ids s)) at 1. apply Add_app. }
      split; [apply (i_nodup _ _ HI)|]. intros K. apply (i_next _ _ HI) in K. lia.
    + intros k K. rewrite IDS in K. apply in_app_or in K as [K|[<-|[]]]; [apply (i_next _ _ HI) in K; lia|lia].
    + intros t' k' r K. destruct (i_ret _ _ HI _ _ _ K) as [K1 K2]. split; [|lia]. rewrite IDS. intros X.
      apply in_app_or in X as [X|[X|[]]]; [auto|lia].
    + intros t' p' l' k' K Ec. look K; [discriminate|]. pose proof (i_pre _ _ HI _ _ _ _ K Ec). lia.
    + intros t' l' k' r K. look K. assert (holding (Leaving (Disconnect k') r) = false) by (eapply SOLE; eauto). discriminate.
    + intros a b' t' k' m' K. destruct (i_run _ _ HI _ _ _ _ _ K) as [R|(l' & i' & c' & R1 & R2)]; auto.
      destruct (Nat.eq_dec t' t) as [->|N]; [congruence|]. assert (holding (Emitting m' i' true) = false) by (eapply SOLE; eauto). discriminate.
    + intros k K. rewrite IDS. destruct (i_conn _ _ HI _ K); [left; apply in_or_app|]; auto.
    + intros t' l' c' k' K. rewrite IDS. rewrite nth_error_upd in K. destruct (Nat.eqb_spec t t') as [<-|N].
      * rewrite H in K. injection K as <- <- <-. left. apply in_or_app. cbn. auto.
      * destruct (i_reg _ _ HI _ _ _ _ K); auto. left. apply in_or_app. auto.
    + intros t' p' l' o' K Ec. look K; [|apply (i_inv _ _ HI _ _ _ _ K Ec)].
      apply (i_inv _ _ HI _ _ _ o' H). exact Ec.
    + intros t' p' l' K. look K; [exact I|]. pose proof (i_now _ _ HI _ _ _ K) as N1.
      assert (P : holding p' = false) by (eapply SOLE; eauto). destruct p'; try discriminate; auto.
    + apply (i_one _ _ HI).
  - (* erased *)
    rewrite app_nil_r.
    assert (SOLE : forall t' p' l', t' <> t -> nth_error (threads s) t' = Some (p', l') -> holding p' = false).
    { intros t' p' l' N K. destruct (holding p') eqn:P; auto. exfalso. apply N. eapply sole_owner; eauto; reflexivity. }
    assert (IN : forall x, In x (ids s) -> x = k \/ In x (map fst (erase k (callbacks s)))).
    { intros x Hx. destruct (Nat.eq_dec x k); auto. right. now apply erase_other. }
    assert (ND : ~ not_disconnected k tr).
    { intros X. apply (X t). apply (i_inv _ _ HI _ _ _ (Disconnect k) H eq_refl). }
    constructor; cbn [threads owner next callbacks].
    + intros t' p' l' K. look K; [apply (i_own _ _ HI _ _ _ H)|]. apply (i_own _ _ HI _ _ _ K).
    + intros t' K. rewrite nth_error_upd. destruct (Nat.eqb_spec t t'); [subst; rewrite H; eauto|apply (i_range _ _ HI _ K)].
    + apply erase_nodup, (i_nodup _ _ HI).
    + intros x K. apply in_erase in K. now apply (i_next _ _ HI).
    + intros t' k' r K. destruct (i_ret _ _ HI _ _ _ K) as [K1 K2]. split; auto. intros X. apply in_erase in X. auto.
    + intros t' p' l' k' K Ec. look K; [|apply (i_pre _ _ HI _ _ _ _ K Ec)]. cbn in Ec. injection Ec as ->.
      apply (i_pre _ _ HI _ _ _ k' H eq_refl).
    + intros t' l' k' r K. rewrite nth_error_upd in K. destruct (Nat.eqb_spec t t') as [<-|N].
      * rewrite H in K. injection K as <- <- <-. apply erase_gone, (i_nodup _ _ HI).
      * assert (holding (Leaving (Disconnect k') r) = false) by (eapply SOLE; eauto). discriminate.
    + intros a b' t' k' m' K. destruct (i_run _ _ HI _ _ _ _ _ K) as [R|(l' & i' & c' & R1 & R2)]; auto.
      destruct (Nat.eq_dec t' t) as [->|N]; [congruence|]. assert (holding (Emitting m' i' true) = false) by (eapply SOLE; eauto). discriminate.
    + intros x K. destruct (i_conn _ _ HI _ K) as [X|X]; auto. destruct (IN _ X) as [->|Y]; auto.
    + intros t' l' c' k' K. look K. destruct (i_reg _ _ HI _ _ _ _ K) as [X|X]; auto. destruct (IN _ X) as [->|Y]; auto.
    + intros t' p' l' o' K Ec. look K; [|apply (i_inv _ _ HI _ _ _ _ K Ec)].
      apply (i_inv _ _ HI _ _ _ o' H). exact Ec.
    + intros t' p' l' K. look K; [exact I|]. pose proof (i_now _ _ HI _ _ _ K) as N1.
      assert (P : holding p' = false) by (eapply SOLE; eauto). destruct p'; try discriminate; auto.
    + apply (i_one _ _ HI).
  - (* leave *)
    assert (SOLE : forall t' p' l', t' <> t -> nth_error (threads s) t' = Some (p', l') -> holding p' = false).
    { intros t' p' l' N K. destruct (holding p') eqn:P; auto. exfalso. apply N. eapply sole_owner; eauto; reflexivity. }
    constructor; cbn.
    + intros t' p' l' K. look K; [cbn; split; discriminate|]. rewrite (SOLE t' _ _ ltac:(congruence) K). split; discriminate.
    + discriminate.
    + apply (i_nodup _ _ HI).
    + apply (i_next _ _ HI).
    + intros t' k' r' K. apply in_app_or in K as [K|[K|[]]]; [apply (i_ret _ _ HI _ _ _ K)|]. injection K as -> -> ->.
      split; [apply (i_leave _ _ HI _ _ _ _ H)|apply (i_pre _ _ HI _ _ _ k' H eq_refl)].
    + intros t' p' l' k' K Ec. look K; [discriminate|apply (i_pre _ _ HI _ _ _ _ K Ec)].
    + intros t' l' k' r' K. look K. apply (i_leave _ _ HI _ _ _ _ K).
    + intros a b' t' k' m' K. apply snoc_split in K as [(b1 & -> & K)|(-> & -> & K)]; [|discriminate].
      destruct (i_run _ _ HI _ _ _ _ _ K) as [R|(l' & i' & c' & R1 & R2)]; [left; apply in_or_app; auto|].
      destruct (Nat.eq_dec t' t) as [->|N]; [congruence|]. assert (holding (Emitting m' i' true) = false) by (eapply SOLE; eauto). discriminate.
    + intros k' K. apply connected_snoc in K as [K|(t' & c' & K)].
      * destruct (i_conn _ _ HI _ K); auto. right. now apply not_disc_snoc.
      * injection K as <- -> ->. destruct (i_reg _ _ HI _ _ _ _ H); auto. right. now apply not_disc_snoc.
    + intros t' l' c' k' K. look K. destruct (i_reg _ _ HI _ _ _ _ K); auto. right. now apply not_disc_snoc.
    + intros t' p' l' o' K Ec. apply in_or_app. left. look K; [discriminate|apply (i_inv _ _ HI _ _ _ _ K Ec)].
    + intros t' p' l' K. rewrite cur_snoc. cbn [cur1]. look K; [exact I|]. apply (i_now _ _ HI _ _ _ K).
    + intros a b c' t1 k1 m1 t2 k2 m2 K. rewrite app_comm_cons, app_assoc in K.
      apply snoc_split in K as [(b1 & -> & K)|(-> & K1 & K)]; [|discriminate].
      rewrite <- app_assoc in K. apply (i_one _ _ HI _ _ _ _ _ _ _ _ _ K).
Qed.

Lemma Inv_exec sched : forall s tr, Inv s tr -> Inv (fst (exec sched s)) (tr ++ snd (exec sched s)).
Proof.
  induction sched as [|t r IH]; intros s tr HI; cbn [exec]; [cbn; now rewrite app_nil_r|].
  pose proof (Inv_step _ _ _ _ _ HI (step_Step t s)) as H1. destruct (step t s) as [s1 e1]. cbn [fst snd] in H1.
  specialize (IH _ _ H1). destruct (exec r s1) as [s2 e2]. cbn [fst snd] in IH |- *. now rewrite app_assoc.
Qed.

Lemma step_one t (s : state) : length (snd (step t s)) <= 1.
Proof. destruct (step_Step t s); cbn; lia. Qed.

(** the moment of an event *)
Lemma exec_at sched : forall (s : state) a e c, snd (exec sched s) = a ++ e :: c ->
  exists r1 t r2, sched = r1 ++ t :: r2 /\ snd (exec r1 s) = a /\ snd (step t (fst (exec r1 s))) = [e] /\
    snd (exec r2 (fst (step t (fst (exec r1 s))))) = c.
Proof.
  induction sched as [|t r IH]; intros s a e c H; cbn in H; [destruct a; discriminate|].
  destruct (step t s) as [s1 e1] eqn:E1. destruct (exec r s1) as [s2 e2] eqn:E2. cbn in H.
  pose proof (step_one t s) as L. rewrite E1 in L. cbn in L.
  assert (CASE : (e1 = [e] /\ a = [] /\ e2 = c) \/ exists a', a = e1 ++ a' /\ e2 = a' ++ e :: c).
  { destruct e1 as [|x [|y e1]]; cbn in L; [| |lia].
    - right. exists a. auto.
    - destruct a as [|y a]; cbn in H; injection H as -> H; [left; auto|right; exists a; auto]. }
  destruct CASE as [(-> & -> & <-)|(a' & -> & H2)].
  - exists [], t, r. cbn. rewrite E1. cbn. rewrite E2. auto.
  - destruct (IH s1 a' e c) as (r1 & t' & r2 & -> & H3 & H4 & H5); [now rewrite E2|].
    exists (t :: r1), t', r2. split; auto. cbn. rewrite E1. destruct (exec r1 s1) as [s3 e3] eqn:E3. cbn in H3, H4, H5 |- *.
    subst. auto.
Qed.

(** the calls since the last invocation *)
Lemma cur_one_call t (b : list event) : one_call t b -> forall acc,
  fold_left (cur1 t) b acc = acc ++ flat_map (fun e => match e with Began t' k m => if Nat.eqb t' t then [(k, m)] else [] | _ => [] end) b.
Proof.
  induction b as [|e b IH]; intros H acc; cbn [fold_left flat_map]; [now rewrite app_nil_r|].
  assert (H' : one_call t b) by (intros o Ho; apply (H o); cbn; auto). rewrite (IH H').
  destruct e as [t' o|t' k m|t' k m|t' o r]; cbn; auto.
  - destruct (Nat.eqb_spec t' t); auto. subst. exfalso. apply (H o). cbn. auto.
  - destruct (Nat.eqb t' t); cbn; auto. now rewrite <- app_assoc.
Qed.
Lemma cur_since t (a : list event) o b : one_call t b -> cur t (a ++ Invoked t o :: b) = flat_map (fun e => match e with Began t' k m => if Nat.eqb t' t then [(k, m)] else [] | _ => [] end) b.
Proof.
  intros H. unfold cur. rewrite fold_left_app. cbn [fold_left cur1]. rewrite Nat.eqb_refl. now rewrite cur_one_call.
Qed.
End Proofs.
