(** Properties of Subscriber. *)
From Coq Require Import String List Arith Lia Bool.
From Verif Require Import Base Sub_Model Sub_Spec Sub_Proofs.
Import ListNotations.

Section Props.
Context {Q R O M : Type}.
Variable from_rmw : R -> Q.
Variable opts0 : O.
Variable qos0 : Q.
Variable accepts : string -> Q -> O -> bool.
Notation request := (request Q O).
Notation form := (form Q R O).
Notation event := (event Q O M).
Notation op := (op Q R O M).
Notation state := (state Q O).
Notation step := (step (M := M) from_rmw opts0 accepts).
Notation run := (run (M := M) from_rmw opts0 accepts).
Notation init := (init opts0 qos0).
Notation wanted := (wanted (M := M) from_rmw opts0).
Notation current := (current (M := M) from_rmw opts0 accepts).
Notation inv := (inv (M := M) from_rmw opts0 accepts).

(** A constructor with a topic is a default constructor followed by subscribe with the address of
    the node; so programs starting with [init] cover all constructors. *)
Definition by_address (f : form) : form :=
  match f with Shared4 q o => Raw4 q o | RmwShared4 r o => RmwRaw4 r o | f => f end.
Lemma constructors n t f : construct (M := M) from_rmw opts0 qos0 accepts n t f = step init (Subscribe n t (by_address f)).
Proof. destruct f; reflexivity. Qed.

(** ** C54 *)
Lemma no_handles h : forall s rs, run init h = Ok (s, rs) -> never takes_handle h -> held s = [].
Proof.
  intros s rs H Hn. pose proof (i_held _ _ _ _ _ _ (run_inv _ _ _ _ _ _ _ H)) as I6.
  assert (Ho : forall k, obtained k rs = 0).
  { intros k. clear I6. revert s rs H Hn. induction h as [|o h IH] using rev_ind; intros s rs H Hn; [injection H as <- <-; reflexivity|].
    apply run_snoc in H as (s1 & rs1 & r & ev & H1 & H2 & ->). apply never_snoc in Hn as [Hn Ho]. rewrite obtained_snoc, (IH _ _ H1 Hn).
    assert (Hr : match r with Handle _ => False | _ => True end); [|destruct r; auto; destruct Hr].
    pose proof (run_inv _ _ _ _ _ _ _ H1) as HI. destruct (inv_elim _ _ _ _ _ _ HI) as (_ & _ & _ & _ & HO & _).
    destruct o as [n t f| | | | |j|n|j m|]; cbn [Sub_Model.step] in H2; try discriminate Ho.
    - destruct (_ || _); [discriminate|]. destruct (form_spec _ _ _ _ _ _ _ _ _ _ _ HO H2) as (_ & _ & [-> | ->] & _); exact I.
    - destruct (gone s1); [discriminate|]. destruct (resubscribe_spec _ _ _ _ _ _ HO H2) as (_ & _ & [-> | ->] & _); exact I.
    - destruct (gone s1); [discriminate|]. destruct (unsubscribe s1). injection H2 as <- <- <-. exact I.
    - destruct (gone s1); [discriminate|]. injection H2 as <- <- <-. exact I.
    - destruct (mem j (held s1)); [|discriminate]. injection H2 as <- <- <-. exact I.
    - destruct (mem n (released s1)); [discriminate|]. injection H2 as <- <- <-. exact I.
    - destruct (exists_sub s1 j); [destruct (gone s1); [discriminate|]|]; injection H2 as <- <- <-; exact I.
    - destruct (gone s1); [discriminate|]. destruct (unsubscribe s1). injection H2 as <- <- <-. exact I. }
  destruct (held s) as [|k l]; auto. specialize (I6 k). cbn in I6. destruct (Nat.eq_dec k k); [|contradiction]. rewrite Ho in I6. lia.
Qed.

(** As long as the user keeps no pointer from getSubscriber: after any program there is exactly
    one subscription if the user wants one and the middleware accepts it, with the topic, QoS and
    options last asked for; otherwise none. *)
Theorem C54_one_subscription h s rs : run init h = Ok (s, rs) -> never takes_handle h ->
  match current h with
  | Some r => exists k r', open (events rs) = [(k, r')] /\ same r' r
  | None => open (events rs) = []
  end.
Proof.
  intros H Hn. pose proof (run_inv _ _ _ _ _ _ _ H) as HI. pose proof (no_handles _ _ _ H Hn) as Hh.
  destruct HI as [_ I2 _ _ I5 I5' _ _].
  assert (Hin : forall k r, In (k, r) (open (events rs)) <-> sub_ s = Some k /\ nth_error (made s) k = Some r).
  { intros k r. rewrite I5, exists_sub_mem, Hh. cbn. tauto. }
  destruct (sub_ s) as [k|] eqn:Hs.
  - destruct I2 as (r & r0 & N & -> & S0). exists k, r. split; auto.
    assert (H1 : In (k, r) (open (events rs))) by (apply Hin; auto).
    destruct (open (events rs)) as [|(j, x) [|(j', x') l]]; [destruct H1|destruct H1 as [->|[]]; reflexivity|].
    exfalso. assert (j = k) by (destruct (proj1 (Hin j x)) as [E _]; [left; auto|congruence]).
    assert (j' = k) by (destruct (proj1 (Hin j' x')) as [E _]; [right; left; auto|congruence]). subst. cbn in I5'. inversion I5' as [|? ? Hx]. apply Hx. left; auto.
  - rewrite I2. destruct (open (events rs)) as [|(j, x) l]; auto. destruct (proj1 (Hin j x)); [left; auto|discriminate].
Qed.

(** ... and never two, also not in the middle of a call. *)
Definition not_opening (e : event) : bool := match e with Opened _ _ => false | _ => true end.
Lemma unsubscribe_events (s s1 : state) (ev : list event) : unsubscribe s = (s1, ev) -> forallb not_opening ev = true.
Proof. unfold unsubscribe. destruct (sub_ s) as [k|]; [destruct (mem k (held s))|]; intros E; injection E as <- <-; reflexivity. Qed.
Lemma raw_events (s s' : state) n t q o r (ev : list event) : subscribe_raw accepts s n t q o = Ok (s', r, ev) -> forallb not_opening (removelast ev) = true.
Proof.
  unfold subscribe_raw. destruct (unsubscribe s) as [s1 ev1] eqn:Hu. pose proof (unsubscribe_events _ _ _ Hu) as He.
  assert (Hl : forallb not_opening (removelast ev1) = true).
  { rewrite forallb_forall in *. intros x Hx. apply He. destruct ev1 as [|a l] eqn:Ea; [destruct Hx|]. rewrite <- Ea in *. rewrite (app_removelast_last a) by (rewrite Ea; discriminate).
    apply in_or_app. auto. }
  destruct (String.eqb t ""); [intros E; injection E as <- <- <-; auto|]. cbn zeta. destruct (exists_node _ n); [|discriminate].
  destruct (accepts t q o); intros E; injection E as <- <- <-; auto. now rewrite removelast_last.
Qed.
Lemma shared_events (s s' : state) n t q o r (ev : list event) : subscribe_shared accepts s n t q o = Ok (s', r, ev) -> forallb not_opening (removelast ev) = true.
Proof.
  unfold subscribe_shared. destruct (subscribe_raw accepts s n t q o) as [[[s1 r1] ev1]|] eqn:E; [|discriminate]. cbn [bind]. intros H.
  apply raw_events in E. destruct r1; injection H as <- <- <-; auto.
Qed.
Lemma step_events s o s' r ev : step s o = Ok (s', r, ev) -> forallb not_opening (removelast ev) = true.
Proof.
  destruct o as [n t f| | | | |j|n|j m|]; cbn [Sub_Model.step]; intros E.
  - destruct (_ || _); [discriminate|]. rewrite subscribe_form in E. destruct f; cbn iota in E; (eapply raw_events; eassumption) || (eapply shared_events; eassumption).
  - destruct (gone s); [discriminate|]. unfold resubscribe in E. destruct (String.eqb (topic_ s) ""); [injection E as <- <- <-; auto|].
    destruct (node_raw s); [eapply raw_events; eassumption|]. destruct (node_shared s); [eapply shared_events; eassumption|]. injection E as <- <- <-; auto.
  - destruct (gone s); [discriminate|]. unfold unsubscribe in E. destruct (sub_ s) as [k|]; [destruct (mem k (held s))|]; injection E as <- <- <-; auto.
  - destruct (gone s); [discriminate|]. injection E as <- <- <-; auto.
  - destruct (gone s); [discriminate|]. injection E as <- <- <-; auto.
  - destruct (mem j (held s)); [|discriminate]. cbn zeta in E. injection E as <- <- <-. destruct (exists_sub _ j); auto.
  - destruct (mem n (released s)); [discriminate|]. injection E as <- <- <-. auto.
  - destruct (exists_sub s j); [destruct (gone s); [discriminate|]|]; injection E as <- <- <-; auto.
  - destruct (gone s); [discriminate|]. unfold unsubscribe in E. destruct (sub_ s) as [k|]; [destruct (mem k (held s))|]; injection E as <- <- <-; auto.
Qed.
Lemma observe_shrinks (l : list event) : forall c : list (nat * request), forallb not_opening l = true -> length (fold_left observe l c) <= length c.
Proof.
  induction l as [|e l IH]; intros c H; [auto|]. cbn in H. apply andb_true_iff in H as [He H]. cbn [fold_left]. etransitivity; [apply IH; auto|].
  destruct e; cbn in *; [discriminate| |lia]. clear. induction c as [|x c IH]; cbn; auto. destruct (negb _); cbn; lia.
Qed.
Lemma prefix_removelast {A} (p q : list A) a : exists q', removelast (p ++ a :: q) = p ++ q'.
Proof. exists (removelast (a :: q)). apply removelast_app. discriminate. Qed.
Theorem C54_never_two h s rs : run init h = Ok (s, rs) -> never takes_handle h ->
  forall p q, events rs = p ++ q -> length (open p) <= 1.
Proof.
  revert s rs. induction h as [|o h IH] using rev_ind; intros s rs H Hn p q E.
  - injection H as <- <-. destruct p; [cbn; lia|discriminate].
  - pose proof (C54_one_subscription _ _ _ H Hn) as Hw. apply run_snoc in H as (s1 & rs1 & r & ev & H1 & H2 & ->). rewrite events_snoc in *. pose proof Hn as Hn'.
    apply never_snoc in Hn' as [Hn' _]. pose proof (C54_one_subscription _ _ _ H1 Hn') as Hw1.
    assert (L1 : length (open (events rs1)) <= 1) by (destruct (current h); [destruct Hw1 as (? & ? & -> & _)|rewrite Hw1]; cbn; lia).
    apply app_eq_app in E as (l & [[E1 E2]|[E1 E2]]).
    + eapply IH; eauto.
    + subst p. destruct q as [|a q].
      * rewrite app_nil_r in E2. subst l. destruct (current (h ++ [o])); [destruct Hw as (? & ? & -> & _)|rewrite Hw]; cbn; lia.
      * rewrite open_app. etransitivity; [apply observe_shrinks|exact L1]. pose proof (step_events _ _ _ _ _ H2) as Hs. rewrite E2 in Hs.
        destruct (prefix_removelast l q a) as (q' & Eq). rewrite Eq, forallb_app in Hs. now apply andb_true_iff in Hs.
Qed.

(** With pointers from getSubscriber around: apart from one subscription, which is as above, only
    those the user still points to exist. *)
Theorem C54_only_held_remain h s rs : run init h = Ok (s, rs) ->
  exists c, forall k r, In (k, r) (open (events rs)) ->
    (c = Some k /\ exists r0, current h = Some r0 /\ same r r0) \/ given_up k h < obtained k rs.
Proof.
  intros H. pose proof (run_inv _ _ _ _ _ _ _ H) as [_ I2 _ _ I5 _ _ I6]. exists (sub_ s). intros k r Hk.
  apply I5 in Hk as [He Hr]. apply exists_sub_mem in He as [He|He].
  - left. split; auto. rewrite He in I2. destruct I2 as (r' & r0 & E & E' & S0). exists r0. split; auto. congruence.
  - right. specialize (I6 k). apply (count_occ_In Nat.eq_dec) in He. lia.
Qed.

(** The Subscriber passes on exactly the messages handed to an existing subscription. *)
Theorem C54_messages h k m s rs : run init (h ++ [Incoming k m]) = Ok (s, rs) ->
  exists rs0, rs = rs0 ++ [(Done, if existsb (fun x => Nat.eqb (fst x) k) (open (events rs0)) then [Signal m] else [])] /\ length rs0 = length h.
Proof.
  intros H. apply run_snoc in H as (s1 & rs1 & r & ev & H1 & H2 & ->). exists rs1. pose proof (run_inv _ _ _ _ _ _ _ H1) as [_ _ _ _ I5 _ I7 _].
  assert (L : length rs1 = length h).
  { clear - H1. revert rs1 s1 H1. generalize init. induction h as [|o h IH]; intros s0 rs1 s1 H; cbn in H; [injection H as _ <-; auto|].
    destruct (step s0 o) as [[[s2 r2] ev2]|]; [|discriminate]. cbn in H. destruct (run s2 h) as [[? ?]|] eqn:E; [|discriminate]. cbn in H. injection H as _ <-. cbn. f_equal. eauto. }
  split; auto. f_equal. assert (Hb : existsb (fun x : nat * request => Nat.eqb (fst x) k) (open (events rs1)) = exists_sub s1 k).
  { apply eq_true_iff_eq. rewrite existsb_exists. split.
    - intros ((j & x) & Hj & E). apply Nat.eqb_eq in E. cbn in E. subst j. now apply I5 in Hj as [Hj _].
    - intros He. destruct (nth_error (made s1) k) as [x|] eqn:Hx; [|apply nth_error_None in Hx; apply I7 in He; lia]. exists (k, x). split; [apply I5; auto|apply Nat.eqb_refl]. }
  rewrite Hb. cbn [Sub_Model.step] in H2. destruct (exists_sub s1 k); [destruct (gone s1); [discriminate|]|]; injection H2 as <- <- <-; reflexivity.
Qed.

Theorem C54_get_topic h s rs : run init (h ++ [GetTopic]) = Ok (s, rs) ->
  exists rs0, rs = rs0 ++ [(Topic (match wanted h with Some r => rtopic r | None => "" end), [])].
Proof.
  intros H. apply run_snoc in H as (s1 & rs1 & r & ev & H1 & H2 & ->). exists rs1. pose proof (run_inv _ _ _ _ _ _ _ H1) as [_ _ _ I4 _ _ _ _].
  cbn [Sub_Model.step] in H2. destruct (gone s1); [discriminate|]. injection H2 as <- <- <-. destruct (wanted h) as [w|]; [destruct I4 as (-> & _)|rewrite I4]; reflexivity.
Qed.

(** Unsubscribing and re-subscribing restores topic, QoS and options. *)
Theorem C54_resubscribe_restores h h' s rs r : run init (h ++ Unsubscribe :: h' ++ [Resubscribe]) = Ok (s, rs) ->
  never takes_handle (h ++ Unsubscribe :: h' ++ [Resubscribe]) -> never subscribes h' ->
  current h = Some r -> exists k r', open (events rs) = [(k, r')] /\ same r' r.
Proof.
  intros H Hn Hs Hc. pose proof (C54_one_subscription _ _ _ H Hn) as Hw.
  assert (E : current (h ++ Unsubscribe :: h' ++ [Resubscribe]) = Some r); [|now rewrite E in Hw].
  replace (h ++ Unsubscribe :: h' ++ [Resubscribe]) with (((h ++ [Unsubscribe]) ++ h') ++ [Resubscribe]) by (rewrite <- !app_assoc; reflexivity).
  rewrite current_eq, on_snoc, wanted_snoc. cbn [switches requests].
  assert (Hw' : wanted ((h ++ [Unsubscribe]) ++ h') = wanted h).
  { clear - Hs. induction h' as [|o l IH] using rev_ind; [rewrite app_nil_r, wanted_snoc; reflexivity|]. rewrite app_assoc, wanted_snoc. apply never_snoc in Hs as [Hs Ho].
    rewrite (IH Hs). destruct o; try discriminate Ho; reflexivity. }
  rewrite Hw'. rewrite current_eq in Hc. destruct (Sub_Spec.on h); [auto|discriminate].
Qed.

(** ** C74: a destroyed Subscriber is not called *)
Theorem C74_no_call_after_destruction_partial h s rs : run init h = Ok (s, rs) -> never takes_handle h -> existsb destroys h = true ->
  forall k m, step s (Incoming k m) = Ok (s, Done, []).
Proof.
  intros H Hn Hd k m. pose proof (run_inv _ _ _ _ _ _ _ H) as [I1 _ I3 _ _ _ _ _]. rewrite Hd in I1. cbn [Sub_Model.step].
  destruct (exists_sub s k) eqn:He; auto. apply exists_sub_mem in He. rewrite (no_handles _ _ _ H Hn), (I3 I1) in He. destruct He as [He|[]]. discriminate.
Qed.

(** ** C75: the node given by shared pointer is kept for re-subscribing *)
(** the overloads with options *)
Theorem C75_shared_node_kept_partial h1 n t f h2 s rs :
  run init (h1 ++ Subscribe n t f :: h2) = Ok (s, rs) -> by_shared (Subscribe n t f : op) = true ->
  accepts t (asked_qos from_rmw f) (asked_options opts0 f) = true ->
  never subscribes h2 -> never destroys (h1 ++ Subscribe n t f :: h2) ->
  exists s' k ev, step s Resubscribe = Ok (s', Done, ev ++ [Opened k (mkRequest n t (asked_qos from_rmw f) (asked_options opts0 f))]).
Proof.
  intros H Hb Ha Hn Hd.
  assert (K : node_shared s = Some n /\ node_raw s = None /\ topic_ s = t /\ qos_ s = asked_qos from_rmw f /\ options_ s = asked_options opts0 f /\ t <> ""%string /\ gone s = false).
  { replace (h1 ++ Subscribe n t f :: h2) with ((h1 ++ [Subscribe n t f]) ++ h2) in * by (rewrite <- app_assoc; reflexivity).
    revert s rs H. induction h2 as [|o h2 IH] using rev_ind; intros s rs H.
    - rewrite app_nil_r in *. pose proof (run_inv _ _ _ _ _ _ _ H) as HI. apply run_snoc in H as (s1 & rs1 & r & ev & H1 & H2 & ->).
      pose proof (run_inv _ _ _ _ _ _ _ H1) as HI1. destruct (inv_elim _ _ _ _ _ _ HI1) as (_ & _ & _ & _ & HO & _).
      cbn [Sub_Model.step] in H2. destruct (gone s1 || _) eqn:Hg; [discriminate|]. apply orb_false_iff in Hg as [Hg _]. rewrite subscribe_form in H2.
      destruct f as [q o|q o|q|q|q o|q o|q|q]; try discriminate Hb; cbn [by_shared] in Hb; apply negb_true_iff, String.eqb_neq in Hb;
        destruct (shared_spec _ _ _ _ _ _ _ _ _ _ HO H2) as (_ & (_ & _ & K3) & [(E & _)|(_ & (B1 & B2 & B3) & [(_ & _ & (G1 & G2) & _)|(D & _)])]); try contradiction; try congruence; repeat split; congruence.
    - rewrite app_assoc in *. apply run_snoc in H as (s1 & rs1 & r & ev & H1 & H2 & ->). apply never_snoc in Hn as [Hn Ho]. apply never_snoc in Hd as [Hd Hod].
      destruct (IH Hn Hd _ _ H1) as (K1 & K2 & K3 & K4 & K5 & K6 & K7). pose proof (run_inv _ _ _ _ _ _ _ H1) as HI1. destruct (inv_elim _ _ _ _ _ _ HI1) as (_ & _ & _ & _ & HO & _).
      destruct o as [n' t' f'| | | | |j|n'|j m|]; try discriminate Ho; try discriminate Hod; cbn [Sub_Model.step] in H2; rewrite ?K7 in H2.
      + unfold resubscribe in H2. destruct (String.eqb_spec (topic_ s1) ""); [congruence|]. rewrite K2, K1 in H2.
        destruct (shared_spec _ _ _ _ _ _ _ _ _ _ HO H2) as (_ & (_ & _ & L3) & [(E & _)|(_ & (B1 & B2 & B3) & [(_ & _ & (G1 & G2) & _)|(D & _)])]); try congruence; repeat split; congruence.
      + destruct (unsubscribe s1) as [s2 ev2] eqn:Hu. injection H2 as <- <- <-. destruct (opens_unsubscribe _ _ _ _ HO Hu) as (_ & U1 & U2 & U3 & U4 & U5 & U6 & U7 & U8 & U9 & U10).
        repeat split; congruence.
      + injection H2 as <- <- <-. repeat split; auto.
      + injection H2 as <- <- <-. destruct (sub_ s1); repeat split; auto.
      + destruct (mem j (held s1)); [|discriminate]. cbn zeta in H2. injection H2 as <- <- <-. repeat split; auto.
      + destruct (mem n' (released s1)); [discriminate|]. injection H2 as <- <- <-. repeat split; auto.
      + destruct (exists_sub s1 j); injection H2 as <- <- <-; repeat split; auto. }
  destruct K as (K1 & K2 & K3 & K4 & K5 & K6 & K7). cbn [Sub_Model.step]. rewrite K7. unfold resubscribe. destruct (String.eqb_spec (topic_ s) ""); [congruence|].
  rewrite K2, K1, K3, K4, K5. unfold subscribe_shared, subscribe_raw. destruct (unsubscribe s) as [s2 ev2] eqn:Hu. destruct (String.eqb_spec t ""); [contradiction|].
  cbn zeta. assert (Hx : exists_node (set_request s2 t (asked_qos from_rmw f) (asked_options opts0 f)) n = true).
  { unfold exists_node. apply orb_true_iff. right. cbn. unfold unsubscribe in Hu. destruct (sub_ s) as [k|]; [destruct (mem k (held s))|]; injection Hu as <- <-; cbn; rewrite K1; cbn; apply Nat.eqb_refl. }
  rewrite Hx, Ha. cbn [bind]. eexists _, _, _. reflexivity.
Qed.

(** ** C76: re-subscribing uses the node of the last subscription *)
Theorem C76_resubscribe_node_partial h s rs r : run init h = Ok (s, rs) -> never takes_handle h -> never shared_without_topic h ->
  current h = Some r -> exists k, open (events rs) = [(k, r)].
Proof.
  intros H Hn Hs Hc. pose proof (C54_one_subscription _ _ _ H Hn) as Hw. rewrite Hc in Hw. destruct Hw as (k & r' & Ho & S0). exists k. rewrite Ho. do 2 f_equal.
  assert (Hr : rnode r' = rnode r); [|destruct r as [n t q o], r' as [n' t' q' o'], S0 as (E1 & E2 & E3); cbn in *; congruence].
  assert (K : (forall w, wanted h = Some w -> accepts (rtopic w) (rqos w) (ropts w) = true -> gone s = false -> node_used s = Some (rnode w)) /\
              (forall j x w, sub_ s = Some j -> nth_error (made s) j = Some x -> wanted h = Some w -> rnode x = rnode w)).
  { clear - H Hs. revert s rs H. induction h as [|o h IH] using rev_ind; intros s rs H; [injection H as <- <-; split; discriminate|].
    apply run_snoc in H as (s1 & rs1 & rr & ev & H1 & H2 & ->). apply never_snoc in Hs as [Hs Hos]. destruct (IH Hs _ _ H1) as (K1 & K2).
    pose proof (run_inv _ _ _ _ _ _ _ H1) as HI1. destruct (inv_elim _ _ _ _ _ _ HI1) as (_ & _ & I3 & I4 & HO & _). clear IH. rewrite wanted_snoc.
    destruct o as [n t f| | | | |j|n|j m|]; cbn [Sub_Model.step requests] in *.
    - destruct (gone s1 || _) eqn:Hg; [discriminate|]. apply orb_false_iff in Hg as [Hg _].
      destruct (String.eqb_spec t "") as [->|Nt].
      + rewrite subscribe_form in H2. assert (Ef : match f with Shared4 _ _ | RmwShared4 _ _ => true | _ => false end = false) by (destruct f; try discriminate Hos; reflexivity). rewrite Ef in H2.
        destruct (raw_spec _ _ _ _ _ _ _ _ _ _ HO H2) as (_ & (_ & _ & L3) & [(_ & D & _ & (E1 & E2) & _)|(N & _)]); [|contradiction].
        split; [|intros j x w Ej; congruence]. intros w Hw Ha _. unfold node_used. rewrite E1, E2. apply K1; auto.
      + destruct (form_spec _ _ _ _ _ _ _ _ _ _ _ HO H2) as (_ & _ & _ & [(-> & _)|(_ & _ & F)]); [contradiction|].
        split; intros; [injection H as <-; destruct F as [(_ & _ & F & _)|(F & _)]; [exact F|cbn in *; congruence]|].
        injection H3 as <-. destruct F as [(_ & (j' & F1 & F2) & _)|(_ & F & _)]; [|congruence]. cbn. assert (j' = j) by congruence. subst. rewrite F2 in H0. now injection H0 as <-.
    - destruct (gone s1) eqn:Hg; [discriminate|]. destruct (resubscribe_spec _ _ _ _ _ _ HO H2) as (_ & _ & _ & [(-> & _)|(n & N & Nt & _ & F & N')]); [rewrite Hg in *; auto|].
      unfold want in I4. split.
      + intros w Hw Ha _. rewrite N'. rewrite <- N. apply K1; auto.
      + intros j x w Ej Ex Hw. destruct F as [(Ha & (j' & F1 & F2) & _)|(_ & F & _)]; [|congruence]. assert (j' = j) by congruence. subst. rewrite F2 in Ex. injection Ex as <-. cbn.
        rewrite Hw in I4. destruct I4 as (W1 & W2 & W3 & _). rewrite W1, W2, W3 in Ha. specialize (K1 _ Hw Ha eq_refl). congruence.
    - destruct (gone s1) eqn:Hg; [discriminate|]. destruct (unsubscribe s1) as [s2 ev2] eqn:Hu. injection H2 as <- <- <-.
      destruct (opens_unsubscribe _ _ _ _ HO Hu) as (_ & U1 & U2 & U3 & U4 & U5 & U6 & U7 & U8 & U9 & U10). split; [|intros j x w Ej; congruence].
      unfold node_used in *. rewrite U6, U7. intros. apply K1; auto.
    - destruct (gone s1) eqn:Hg; [discriminate|]. injection H2 as <- <- <-. rewrite Hg. auto.
    - destruct (gone s1) eqn:Hg; [discriminate|]. injection H2 as <- <- <-. destruct (sub_ s1) eqn:E; cbn; rewrite ?E, ?Hg; auto.
    - destruct (mem j (held s1)); [|discriminate]. cbn zeta in H2. injection H2 as <- <- <-. auto.
    - destruct (mem n (released s1)); [discriminate|]. injection H2 as <- <- <-. auto.
    - destruct (exists_sub s1 j); [destruct (gone s1) eqn:Hg; [discriminate|]|]; injection H2 as <- <- <-; rewrite ?Hg; auto.
    - destruct (gone s1) eqn:Hg; [discriminate|]. destruct (unsubscribe s1) as [s2 ev2] eqn:Hu. injection H2 as <- <- <-.
      destruct (opens_unsubscribe _ _ _ _ HO Hu) as (_ & U1 & _). split; [intros; discriminate|]. cbn. intros j x w Ej; congruence. }
  pose proof (run_inv _ _ _ _ _ _ _ H) as HI. destruct (inv_elim _ _ _ _ _ _ HI) as (_ & I2 & _ & _ & (O1 & _) & _).
  assert (Hk : In (k, r') (open (events rs))) by (rewrite Ho; left; auto). apply O1 in Hk as [He Hm]. apply exists_sub_mem in He. rewrite (no_handles _ _ _ H Hn) in He.
  destruct He as [He|[]]. destruct K as [_ K]. apply (K k r' r He Hm). rewrite current_eq in Hc. destruct (Sub_Spec.on h); [|discriminate]. unfold ok_request in Hc.
  destruct (wanted h) as [w|]; [|discriminate]. destruct (accepts _ _ _); congruence.
Qed.
End Props.

(** ** Where the code falls short *)
Notation Op := (op nat nat nat nat).
Definition ok (t : string) (q o : nat) : bool := negb (String.eqb t "bad").
Notation Run := (run (Q := nat) (R := nat) (O := nat) (M := nat) S 0 ok (init 0 0)).
Notation Step := (step (Q := nat) (R := nat) (O := nat) (M := nat) S 0 ok).
Open Scope string_scope.

(** C54: whoever keeps the pointer returned by getSubscriber keeps the subscription going *)
Theorem C54_user_pointer_refuted : exists s rs, Run [Subscribe 0 "a" (Raw4 1 2); GetSub; Unsubscribe; Incoming 0 7 : Op] = Ok (s, rs) /\
  current S 0 ok [Subscribe 0 "a" (Raw4 1 2); GetSub; Unsubscribe; Incoming 0 7 : Op] = None /\ open (events rs) <> [] /\ In (Signal 7) (events rs).
Proof. eexists _, _. split; [vm_compute; reflexivity|]. split; [vm_compute; reflexivity|]. split; [discriminate|]. cbn. auto. Qed.
Theorem C54_two_subscriptions_refuted : exists s rs, Run [Subscribe 0 "a" (Raw4 1 2); GetSub; Subscribe 0 "b" (Raw4 1 2) : Op] = Ok (s, rs) /\ length (open (events rs)) = 2.
Proof. eexists _, _. split; vm_compute; reflexivity. Qed.
(** C74: and its messages reach the destroyed Subscriber *)
Theorem C74_user_pointer_refuted : exists s rs, Run [Subscribe 0 "a" (Raw4 1 2); GetSub; Destroy : Op] = Ok (s, rs) /\ forall m, Step s (Incoming 0 m) = Err UB.
Proof. eexists _, _. split; [vm_compute; reflexivity|]. intros. reflexivity. Qed.
(** C75: the overloads without options forget the shared pointer; so do all constructors *)
Theorem C75_shared_without_options_refuted : exists s rs, Run [Subscribe 0 "a" (Shared3 1); ReleaseNode 0 : Op] = Ok (s, rs) /\ Step s (Resubscribe : Op) = Err UB.
Proof. eexists _, _. split; vm_compute; reflexivity. Qed.
Theorem C75_constructor_refuted : exists s r ev s', construct S 0 0 ok 0 "a" (Shared4 1 2) = Ok (s, r, ev : list (event nat nat nat)) /\
  Step s (ReleaseNode 0 : Op) = Ok (s', Done, []) /\ Step s' (Resubscribe : Op) = Err UB.
Proof. eexists _, _, _, _. split; [vm_compute; reflexivity|]. split; vm_compute; reflexivity. Qed.
(** C76: a call that only unsubscribes (empty topic) still replaces the node *)
Theorem C76_empty_topic_refuted : exists s rs, Run [Subscribe 0 "a" (Raw4 1 2); Subscribe 9 "" (Shared4 3 4); Resubscribe : Op] = Ok (s, rs) /\
  current S 0 ok [Subscribe 0 "a" (Raw4 1 2); Subscribe 9 "" (Shared4 3 4); Resubscribe : Op] = Some (mkRequest 0 "a" 1 2) /\
  open (events rs) = [(1, mkRequest 9 "a" 1 2)].
Proof. eexists _, _. split; [vm_compute; reflexivity|]. split; vm_compute; reflexivity. Qed.

(** ** Instances *)
Definition sprog : list Op := [Subscribe 0 "a" (Raw3 5); Incoming 0 1; Subscribe 1 "b" (RmwShared4 6 7); Incoming 0 2; Incoming 1 3; Unsubscribe; Incoming 1 4;
  Subscribe 0 "bad" (Raw4 8 9); Subscribe 1 "c" (Shared4 3 2); ReleaseNode 1; Unsubscribe; GetTopic; Resubscribe; Incoming 3 5].
Example sprog_runs : exists s rs, Run sprog = Ok (s, rs) /\ map fst rs = [Done; Done; Done; Done; Done; Done; Done; Threw; Done; Done; Done; Topic "c"; Done; Done] /\
  filter (fun e => match e with Signal _ => true | _ => false end) (events rs) = [Signal 1; Signal 3; Signal 5] /\ open (events rs) = [(3, mkRequest 1 "c" 3 2)].
Proof. eexists _, _. split; [vm_compute; reflexivity|]. split; [vm_compute; reflexivity|]. split; vm_compute; reflexivity. Qed.
Example sprog_hypotheses : never takes_handle sprog /\ never shared_without_topic sprog /\ never destroys sprog /\ current S 0 ok sprog = Some (mkRequest 1 "c" 3 2) /\
  never subscribes (skipn 9 sprog) /\ by_shared (Subscribe 1 "c" (Shared4 3 2) : Op) = true /\ current S 0 ok (firstn 9 sprog) = Some (mkRequest 1 "c" 3 2).
Proof.
  assert (H : forall (p : Op -> bool) l, forallb (fun o => negb (p o)) l = true -> never p l).
  { intros p l Hl o Ho. rewrite forallb_forall in Hl. now apply negb_true_iff, Hl. }
  repeat split; try (apply H; reflexivity).
Qed.
Example destroyed : exists s rs, Run [Subscribe 0 "a" (Raw3 5); Destroy] = Ok (s, rs) /\ Step s (Incoming 0 1) = Ok (s, Done, []).
Proof. eexists _, _. split; vm_compute; reflexivity. Qed.

Print Assumptions C54_one_subscription.
Print Assumptions C54_never_two.
Print Assumptions C54_only_held_remain.
Print Assumptions C54_messages.
Print Assumptions C54_get_topic.
Print Assumptions C54_resubscribe_restores.
Print Assumptions C74_no_call_after_destruction_partial.
Print Assumptions C75_shared_node_kept_partial.
Print Assumptions C76_resubscribe_node_partial.
