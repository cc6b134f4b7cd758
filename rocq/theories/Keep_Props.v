(** C115: messages kept by filters do not change. *)
From Coq Require Import List Arith Lia Bool.
From Verif Require Import Base Event_Model Event_Spec Keep_Model Keep_Spec Event_Proofs Keep_Proofs.
Import ListNotations.

Section Props.
Context {V T : Type}.
Notation state := (state V T).
Notation op := (op V T).

Lemma careful_app h1 : forall (s s1 : state) h2, careful s (h1 ++ h2) -> run s h1 = Ok s1 -> careful s h1 /\ careful s1 h2.
Proof.
  induction h1 as [|o h1 IH]; intros s s1 h2 C R; cbn in R.
  - injection R as <-. split; [exact I|exact C].
  - destruct (step s o) as [s'|] eqn:E; [|discriminate]. cbn in R. destruct C as [C1 C2]. destruct (IH _ _ _ (C2 _ E) R) as [A B].
    split; auto. split; auto. intros s2 E2. assert (s2 = s') as -> by congruence. auto.
Qed.
Lemma content_some (s : state) k v : content s k = Some v -> exists e, nth_error (kept s) k = Some e /\ nth_error (mem s) (msg e) = Some v.
Proof. unfold content. destruct (nth_error (kept s) k); [eauto|discriminate]. Qed.
Lemma steady_content (s s' : state) k v : (exists more, kept s' = kept s ++ more) -> (forall e, In e (kept s) -> nth_error (mem s') (msg e) = nth_error (mem s) (msg e)) ->
  content s k = Some v -> content s' k = Some v.
Proof.
  intros (more & K) R H. apply content_some in H as (e & E & H). unfold content. rewrite K, nth_error_app1 by (apply nth_error_Some; congruence). rewrite E, R; auto. eapply nth_error_In; eauto.
Qed.

(** Whatever else happens: a kept message stays as it is, as long as no event that demands no copies is handed to a
    lone callback, or to a synchronizer's callback, that asks for non-const access *)
Theorem C115_kept_messages_do_not_change_partial h1 h2 (s1 s2 : state) k v : careful init (h1 ++ h2) -> run init h1 = Ok s1 -> run s1 h2 = Ok s2 ->
  content s1 k = Some v -> content s2 k = Some v.
Proof.
  intros C R1 R2 H. destruct (careful_app _ _ _ _ C R1) as [C1 C2]. destruct (run_steady _ _ _ init_inv C1 R1) as (I1 & _). destruct (run_steady _ _ _ I1 C2 R2) as (_ & K & R).
  eapply steady_content; eauto.
Qed.
(** What filters receive has the content of what was signalled *)
Theorem C115_received_as_sent_partial h (s s' : state) o : careful init (h ++ [o]) -> run init h = Ok s -> step s o = Ok s' ->
  match o with
  | New v _ _ => length (kept s') = S (length (kept s)) /\ content s' (length (kept s)) = Some v
  | Hand k cbs => length (kept s') = length (kept s) + list_sum (map filters cbs) /\
                  forall j, length (kept s) <= j < length (kept s') -> content s' j = content s k
  | _ => kept s' = kept s
  end.
Proof.
  intros C R E. destruct (careful_app _ _ _ _ C R) as [C1 C2]. destruct (run_steady _ _ _ init_inv C1 R) as (I1 & _).
  assert (careful s [o]) as C3 by (destruct C2; split; auto; cbn; auto). pose proof (step_steady _ _ _ I1 C3 E) as [_ R1 _].
  destruct o as [v t nc|k cbs|ks cbs|j v]; cbn [step] in E.
  - injection E as <-. cbn. rewrite app_length. cbn. split; [lia|]. unfold content. cbn. rewrite nth_error_app2, Nat.sub_diag by lia. cbn. rewrite nth_error_app2, Nat.sub_diag by lia. reflexivity.
  - unfold nth_kept in E. destruct (nth_error (kept s) k) as [e|] eqn:Ek; [|discriminate]. cbn [bind] in E. destruct (signal (mem s) e cbs) as [[h' os]|]; [|discriminate]. cbn in E. injection E as <-. cbn [kept mem] in *. split.
    + rewrite app_length. f_equal. match goal with |- context [received ?a] => generalize a end. clear.
      assert (forall (x : node V) (e1 : event T), length (received e1 x) = filters x) as L.
      { induction x as [c|l IH] using (@node_ind' V); intros e1; cbn [received filters length]; auto. f_equal. generalize (flagged (1 <? length l) e1). intros a.
        induction IH as [|x l Hx _ IHl]; cbn; auto. rewrite app_length, Hx. unfold list_sum in IHl |- *. cbn. now rewrite IHl. }
      intros a. induction cbs as [|x l IHl]; cbn; auto. rewrite app_length, L, IHl. reflexivity.
    + intros j Hj. unfold content. cbn [kept mem]. rewrite Ek. destruct (nth_error (kept s ++ _) j) as [e'|] eqn:Ej; [|apply nth_error_None in Ej; lia].
      rewrite nth_error_app2 in Ej by lia. apply nth_error_In in Ej. apply in_flat_map in Ej as (x & _ & Hr). apply received_same in Hr as (A & _). cbn in A. rewrite A. apply R1. eapply nth_error_In; eauto.
  - destruct (all_kept s ks); [|discriminate]. cbn [bind] in E. destruct (signal9 _ _ _) as [[h' os]|]; [|discriminate]. cbn in E. now injection E as <-.
  - destruct (nth_error (granted s) j); [|discriminate]. now injection E as <-.
Qed.

(** Which of the events received demand copies: all of them if several callbacks were called; if a filter was the only
    callback, it receives the event as it was *)
Theorem C115_copies_demanded (s s' : state) k cbs e : nth_error (kept s) k = Some e -> step s (Hand k cbs) = Ok s' ->
  (2 <= length cbs -> forall j e', length (kept s) <= j -> nth_error (kept s') j = Some e' -> need e' = true) /\
  (forall l, cbs = [Filter l] -> exists e', nth_error (kept s') (length (kept s)) = Some e' /\ need e' = need e).
Proof.
  intros Ek E. cbn [step] in E. unfold nth_kept in E. rewrite Ek in E. cbn [bind] in E. destruct (signal (mem s) e cbs) as [[h' os]|]; [|discriminate]. cbn in E. injection E as <-. cbn [kept]. split.
  - intros L j e' Lj Hj. rewrite nth_error_app2 in Hj by lia. apply nth_error_In, in_flat_map in Hj as (x & _ & Hr). apply received_same in Hr as (_ & _ & N). apply N. destruct cbs as [|x1 [|x2 cbs]]; cbn in L |- *; [lia|lia|reflexivity].
  - intros l ->. cbn [flat_map received]. rewrite nth_error_app2, Nat.sub_diag by lia. cbn. eauto.
Qed.

(** In particular if all events are made from message pointers, as a Subscriber does: any program, any callbacks *)
Theorem C115_pointer_events_never_change h : all_demand_copies h -> (forall h1 o h2 (s1 : state), h = h1 ++ o :: h2 -> run init h1 = Ok s1 -> possible s1 o) ->
  exists s : state, run init h = Ok s /\ forall h1 h2 (s1 : state) k v, h = h1 ++ h2 -> run init h1 = Ok s1 -> content s1 k = Some v -> content s k = Some v.
Proof.
  intros A P. assert (careful init h) as C by (apply copying_careful; auto; intros e []).
  assert (exists s : state, run init h = Ok s) as (s & R).
  { clear A. revert P C. pose proof (@init_inv V T) as I0. revert I0. generalize (@init V T). induction h as [|o h IH]; intros s0 I0 P C; [exists s0; reflexivity|]. cbn.
    assert (careful s0 [o]) as C1 by (destruct C; split; auto; cbn; auto). destruct (step_total s0 o I0 C1 (P [] o h s0 eq_refl eq_refl)) as (s1 & E). rewrite E. cbn. apply IH.
    - eapply step_steady; eauto.
    - intros h1 o' h2 s2 -> R. apply (P (o :: h1) o' h2 s2); auto. cbn. rewrite E. auto.
    - destruct C as [_ C]. auto. }
  exists s. split; auto. intros h1 h2 s1 k v -> R1 H. eapply C115_kept_messages_do_not_change_partial; eauto.
  clear -R R1. revert R R1. generalize (@init V T). induction h1 as [|o h1 IH]; intros s0 R R1; cbn in *; [congruence|]. destruct (step s0 o); [|discriminate]. cbn in *. eauto.
Qed.

(** Otherwise it does change: whatever happened before, a lone mutable callback writes to the very object that
    filters keep *)
Theorem C115_lone_callback_refuted h (s : state) k e v c cbs : careful init h -> run init h = Ok s -> nth_error (kept s) k = Some e -> content s k = Some v ->
  need e = false -> alone c (Filter cbs) -> mutable_form (fm c) = true ->
  exists s', step s (Hand k cbs) = Ok s' /\ content s' k = Some (writes c v).
Proof.
  intros C R E H N A M. destruct (run_steady _ _ _ init_inv C R) as (I1 & _). unfold content in H. rewrite E in H.
  destruct (call_node_alone c _ A (mem s) e v) as (o & Ec & _); auto; [apply (iv_const _ I1); eapply nth_error_In; eauto|].
  cbn [step]. unfold nth_kept, signal. rewrite E. cbn [bind]. rewrite Ec. cbn [bind]. eexists. split; [reflexivity|]. unfold content. cbn [kept mem].
  rewrite nth_error_app1 by (apply nth_error_Some; congruence). rewrite E. unfold write. eapply nth_error_upd_eq; eauto.
Qed.
End Props.

(** A cache with one callback, which keeps the pointer to the first message and writes to it later.  Contents are stamps. *)
Module Ex.
  Definition keeps : callback nat := mkCallback MutShared (fun v => v).
  Definition tree : list (node nat) := [Filter [User keeps]].   (* a filter feeding a cache feeding the callback *)
  Definition prog (nc : bool) : list (op nat unit) := [New 1 tt nc; Hand 0 tree; New 2 tt nc; Hand 2 tree; Late 0 9].
End Ex.
(** Events that demand copies: the cache (kept events 1 and 3) still holds the stamps 1 and 2 *)
Example C115_copies : all_demand_copies (Ex.prog true) /\ careful init (Ex.prog true) /\
  exists s : state nat unit, run init (Ex.prog true) = Ok s /\ content s 1 = Some 1 /\ content s 3 = Some 2.
Proof.
  split; [intros v t nc H; cbn in H; intuition congruence|]. split; [|eexists; vm_compute; auto].
  apply copying_careful; [intros e []|intros v t nc H; cbn in H; intuition congruence|].
  intros h1 o h2 s1 E R. destruct h1 as [|o1 [|o2 [|o3 [|o4 [|o5 [|]]]]]]; cbn in E; injection E; intros; subst; try discriminate; cbn in R; injection R as <-; cbn; auto; lia.
Qed.
(** Events that do not: the cache, in order when filled, is out of order afterwards: the "older" message is stamped 9 *)
Theorem C115_cache_order_refuted : exists s s' : state nat unit,
  run init (firstn 4 (Ex.prog false)) = Ok s /\ content s 1 = Some 1 /\ content s 3 = Some 2 /\
  run init (Ex.prog false) = Ok s' /\ content s' 1 = Some 9 /\ content s' 3 = Some 2.
Proof. do 2 eexists. vm_compute. repeat split. Qed.
(** The hypotheses of the refutation are met by the first two events of that program *)
Example C115_lone_nonvacuous : alone Ex.keeps (Filter Ex.tree) /\ mutable_form (fm Ex.keeps) = true /\ careful (V:=nat) (T:=unit) init [New 1 tt false].
Proof. split; [repeat constructor|]. split; [reflexivity|]. split; auto. cbn; auto. Qed.

Print Assumptions C115_kept_messages_do_not_change_partial.
Print Assumptions C115_received_as_sent_partial.
Print Assumptions C115_copies_demanded.
Print Assumptions C115_pointer_events_never_change.
Print Assumptions C115_lone_callback_refuted.
Print Assumptions C115_cache_order_refuted.
