(** Properties C01, C02, C69, C70: callbacks of a filter.  [run acts init h] performs the
    calls [h] on a new filter; results are listed per call. *)
From Coq Require Import List Arith Lia Bool Sorted.
From Verif Require Import Base Trace Signal_Model Signal_Spec Signal_Proofs.
Import ListNotations.

Section Props.
Context {C M : Type} (acts : C -> M -> list (act C M)).
Notation op := (op C M).

(** C01: the callbacks called by the [p]-th call, an emission. *)
Theorem C01_fanout (h : list op) s rs p m called threw :
  run acts init h = Ok (s, rs) -> nth_error h p = Some (Emit m) -> nth_error rs p = Some (Delivered called threw) ->
  threw = false -> all_connected (firstn p h) called.
Proof.
  intros Hr Ho Hx ->. destruct (run_at acts h s rs p (Emit m) _ Hr Ho Hx) as (s1 & r1 & s2 & Hr1 & Hs).
  destruct (run_inv acts _ s1 r1 Hr1) as [[_ HC] _]. cbn in Hs.
  destruct (call acts (callbacks s1) m) as [[called' b]|] eqn:Hc; [|discriminate]. cbn in Hs. injection Hs as <- <- ->.
  apply call_prefix in Hc as [-> _]. exact HC.
Qed.

(** With callbacks that do not throw or use the filter, every emission is a delivery and
    nothing fails. *)
Theorem C01_fanout_total (h : list op) :
  passive acts -> exists s rs, run acts init h = Ok (s, rs) /\ length rs = length h /\
    forall p m, nth_error h p = Some (Emit m) ->
      exists called, nth_error rs p = Some (Delivered called false) /\ all_connected (firstn p h) called.
Proof.
  intros HP. assert (HT : exists s rs, run acts init h = Ok (s, rs)).
  { generalize (@init C) as s0. induction h as [|o h IH]; intros s0; cbn; [eauto|].
    destruct o as [c|k|m]; cbn.
    - destruct (IH (mkState (callbacks s0 ++ [(next s0, c)]) (S (next s0)))) as (s & rs & Hr). rewrite Hr. cbn. eauto.
    - destruct (IH (disconnect s0 k)) as (s & rs & Hr). rewrite Hr. cbn. eauto.
    - rewrite call_passive by auto. cbn. destruct (IH s0) as (s & rs & Hr). rewrite Hr. cbn. eauto. }
  destruct HT as (s & rs & Hr). destruct (run_inv acts h s rs Hr) as [_ HL]. exists s, rs. split; auto. split; auto.
  intros p m Ho. destruct (nth_error rs p) as [r|] eqn:Hx.
  2: { apply nth_error_None in Hx. assert (p < length h) by (apply nth_error_Some; congruence). lia. }
  destruct (run_at acts h s rs p (Emit m) _ Hr Ho Hx) as (s1 & r1 & s2 & Hr1 & Hs). cbn in Hs.
  rewrite call_passive in Hs by auto. cbn in Hs. injection Hs as _ <-.
  exists (callbacks s1). split; auto. now apply (run_inv acts _ s1 r1 Hr1).
Qed.

(** C02: [k] is the number returned by registerCallback, and disconnecting it removes that
    callback and nothing else. *)
Theorem C02_connection_identity (h : list op) s rs p c k :
  run acts init h = Ok (s, rs) -> nth_error h p = Some (Register c) -> nth_error rs p = Some (Connected k) ->
  k = registrations (firstn p h).
Proof.
  intros Hr Ho Hx. destruct (run_at acts h s rs p _ _ Hr Ho Hx) as (s1 & r1 & s2 & Hr1 & Hs).
  destruct (run_inv acts _ s1 r1 Hr1) as [[Hn _] _]. cbn in Hs. injection Hs as _ <-. exact Hn.
Qed.

Theorem C02_disconnect_local (h : list op) s rs k s' rs' :
  run acts init h = Ok (s, rs) -> run acts init (h ++ [Disconnect (Some k)]) = Ok (s', rs') ->
  callbacks s' = filter (fun x => negb (Nat.eqb (fst x) k)) (callbacks s).
Proof.
  intros Hr Hr'. destruct (run_inv acts _ s rs Hr) as [[_ [HS HC]] _]. destruct (run_inv acts _ s' rs' Hr') as [HI' _].
  rewrite run_snoc, Hr in Hr'. cbn in Hr'. injection Hr' as <- _. cbn [disconnect remove_callback callbacks].
  clear - HS. induction (callbacks s) as [|y l IH]; cbn; auto. inversion HS as [|? ? HS' HF]; subst.
  destruct (Nat.eqb_spec (fst y) k) as [<-|Hne]; cbn; [|now rewrite IH].
  rewrite Forall_forall in HF. symmetry. clear - HF. induction l as [|z l IH]; cbn; auto.
  pose proof (HF z (or_introl eq_refl)). destruct (Nat.eqb_spec (fst z) (fst y)); [lia|]. cbn. f_equal. apply IH.
  intros; apply HF; cbn; auto.
Qed.

(** Repeating it at any later time, or disconnecting a default-constructed connection, changes
    nothing. *)
Theorem C02_disconnect_idempotent (h h2 : list op) k s rs s' rs' :
  In (Disconnect (Some k)) h2 -> k < registrations h ->
  run acts init (h ++ h2) = Ok (s, rs) -> run acts init ((h ++ h2) ++ [Disconnect (Some k)]) = Ok (s', rs') ->
  s' = s.
Proof.
  intros Hin Hk Hr Hr'. destruct (run_inv acts _ s rs Hr) as [[_ [HS HC]] _].
  rewrite run_snoc, Hr in Hr'. cbn in Hr'. injection Hr' as <- _. destruct s as [cbs nx]. unfold remove_callback.
  cbn [disconnect callbacks next] in *. f_equal.
  assert (Hno : forall x, In x cbs -> fst x <> k).
  { intros [k' c] Hx Hk'. cbn in Hk'. subst k'. apply HC in Hx as (h1 & h2' & Heq & Hreg & Hd). subst k.
    apply Hd. revert Hin. generalize (@Disconnect C M (Some (registrations h1))). intros x Hin. clear - Hin Heq Hk.
    revert h Heq Hk. induction h1 as [|y h1 IH]; intros h Heq Hk.
    - destruct h as [|z h]; [cbn in Hk; lia|]. injection Heq as -> <-. apply in_or_app. auto.
    - destruct h as [|z h]; [cbn in Hk; lia|]. injection Heq as -> Heq. apply (IH h Heq).
      unfold registrations in *. cbn in *. destruct y; cbn in *; lia. }
  clear - Hno. induction cbs as [|y l IH]; cbn; auto. destruct (Nat.eqb_spec (fst y) k) as [He|_].
  - exfalso. apply (Hno y); cbn; auto.
  - f_equal. apply IH. intros; apply Hno; cbn; auto.
Qed.

Theorem C02_disconnect_default (s : state C) : step acts s (Disconnect None) = Ok (s, Done).
Proof. reflexivity. Qed.

(** C69: a callback that uses the filter that is calling it never returns. *)
Theorem C69_reentrant_use_deadlocks (h : list op) s rs m k c o l :
  run acts init h = Ok (s, rs) -> connected h k c -> o <> Disconnect None ->
  acts c m = Use o :: l -> (forall k' c', connected h k' c' -> k' < k -> acts c' m = []) ->
  run acts init (h ++ [Emit m]) = Err Deadlock.
Proof.
  intros Hr Hk Ho Ha Hother. destruct (run_inv acts _ s rs Hr) as [[_ [HS HC]] _].
  rewrite run_snoc, Hr. cbn [bind step].
  assert (Hin : In (k, c) (callbacks s)) by now apply HC.
  assert (Hbefore : forall k' c', In (k', c') (callbacks s) -> k' < k -> acts c' m = []).
  { intros k' c' H. apply HC in H. eauto. }
  clear - Hin HS Ha Ho Hbefore. induction (callbacks s) as [|[k0 c0] t IH]; [destruct Hin|].
  inversion HS as [|? ? HS' HF]; subst. cbn.
  assert (Hc : call acts ((k0, c0) :: t) m = Err Deadlock).
  { destruct Hin as [[= -> ->]|Hin].
    - cbn. rewrite Ha. cbn. destruct o as [?|[?|]|?]; try reflexivity. congruence.
    - rewrite Forall_forall in HF. pose proof (HF _ Hin) as Hlt. cbn in Hlt. cbn.
      rewrite (Hbefore k0 c0) by (cbn; auto). cbn.
      specialize (IH HS' Hin (fun k' c' H => Hbefore k' c' (or_intror H))).
      destruct (call acts t m) as [[called b]|]; [discriminate|]. cbn in *. congruence. }
  cbn in Hc. rewrite Hc. reflexivity.
Qed.

(** C70: when a callback throws, exactly the callbacks registered before it and itself have
    been called, the registrations are unchanged and the filter remains usable. *)
Theorem C70_throwing_callback (h : list op) s rs p m called :
  run acts init h = Ok (s, rs) -> nth_error h p = Some (Emit m) -> nth_error rs p = Some (Delivered called true) ->
  exists l, all_connected (firstn p h) l /\
    exists l1 k c l2, l = l1 ++ (k, c) :: l2 /\ called = l1 ++ [(k, c)] /\ In Throws (acts c m) /\
      forall x, In x l1 -> ~ In Throws (acts (snd x) m).
Proof.
  intros Hr Ho Hx. destruct (run_at acts h s rs p (Emit m) _ Hr Ho Hx) as (s1 & r1 & s2 & Hr1 & Hs).
  destruct (run_inv acts _ s1 r1 Hr1) as [[_ HC] _]. cbn in Hs.
  destruct (call acts (callbacks s1) m) as [[called' b]|] eqn:Hc; [|discriminate]. cbn in Hs. injection Hs as <- <- ->.
  exists (callbacks s1). split; auto. apply call_prefix in Hc as (l1 & k & c & l2 & H1 & H2 & H3 & H4).
  exists l1, k, c, l2. split; auto. split; auto.
  assert (G : forall l, (run_acts l = Ok true -> In Throws l) /\ (run_acts l = Ok false -> ~ In (@Throws C M) l)).
  { induction l as [|a l [IH1 IH2]]; [split; [discriminate|intros _ []]|].
    destruct a as [[?|[?|]|?]|]; cbn; split; intros H; try discriminate.
    - right. now apply IH1.
    - intros [?|?]; [discriminate|]. now apply IH2.
    - now left. }
  split; [now apply G|]. intros x Hx1. apply G. auto.
Qed.
Theorem C70_filter_usable_after_throw (h h2 : list op) s rs m s' called :
  run acts init h = Ok (s, rs) -> step acts s (Emit m) = Ok (s', Delivered called true) ->
  run acts s' h2 = run acts s h2.
Proof.
  intros Hr Hs. cbn in Hs. destruct (call acts (callbacks s) m) as [[c b]|]; [|discriminate]. cbn in Hs.
  now injection Hs as <- _ _.
Qed.
End Props.

(** ** Non-vacuity *)
Module Ex.
  (** callback 7 throws, callback 8 disconnects connection 0, the others are observers *)
  Definition acts (c m : nat) : list (act nat nat) :=
    match c with 7 => [Throws] | 8 => [Use (Disconnect (Some 0))] | _ => [] end.
  Definition h : list (op nat nat) :=
    [Register 10; Register 11; Emit 1; Register 10; Disconnect (Some 0); Disconnect (Some 0); Disconnect None; Emit 2].
End Ex.
Example C01_nonvacuous : exists s, run Ex.acts init Ex.h =
  Ok (s, [Connected 0; Connected 1; Delivered [(0, 10); (1, 11)] false; Connected 2; Done; Done; Done;
          Delivered [(1, 11); (2, 10)] false]).
Proof. eexists. reflexivity. Qed.
Example C70_nonvacuous : exists s, run Ex.acts init [Register 10; Register 7; Register 11; Emit 1; Emit 2] =
  Ok (s, [Connected 0; Connected 1; Connected 2; Delivered [(0, 10); (1, 7)] true; Delivered [(0, 10); (1, 7)] true]).
Proof. eexists. reflexivity. Qed.

(** C69 as a claim ("a callback may disconnect or register callbacks, or emit, on the
    filter that calls it") is false. *)
Theorem C69_reentrant_use_refuted :
  run Ex.acts init [Register 8; Emit 1] = Err Deadlock.
Proof. reflexivity. Qed.
(** C70's stronger reading ("every registered callback is called even if one throws") is
    false. *)
Theorem C70_all_called_despite_throw_refuted :
  exists s, run Ex.acts init [Register 7; Register 11; Emit 1] =
    Ok (s, [Connected 0; Connected 1; Delivered [(0, 7)] true]).
Proof. eexists. reflexivity. Qed.

Print Assumptions C01_fanout.
Print Assumptions C01_fanout_total.
Print Assumptions C02_connection_identity.
Print Assumptions C02_disconnect_local.
Print Assumptions C02_disconnect_idempotent.
Print Assumptions C02_disconnect_default.
Print Assumptions C69_reentrant_use_deadlocks.
Print Assumptions C69_reentrant_use_refuted.
Print Assumptions C70_throwing_callback.
Print Assumptions C70_filter_usable_after_throw.
Print Assumptions C70_all_called_despite_throw_refuted.
