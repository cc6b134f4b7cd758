(** C117: failing copies, null messages and message factories. *)
From Coq Require Import List Arith Lia Bool.
From Verif Require Import Base Event_Model CopyFail_Model CopyFail_Spec CopyFail_Proofs.
Import ListNotations.

Section Props.
Context {V : Type}.

Lemma run_right h : forall s (l : list (known V)) s' xs, all_right s l -> Forall (fun p => honest (snd p)) h -> frun s h = (s', xs) -> Forall (fun x => fatal x = false) xs ->
  all_right s' (learnt l h xs).
Proof.
  induction h as [|[o oc] h IH]; intros s l s' xs R Ho E NF; cbn [frun] in E.
  - injection E as <- <-. exact R.
  - inversion Ho; subst. destruct (fstep s o oc) as [s1 x] eqn:Es. destruct (fatal x) eqn:Ef.
    + injection E as <- <-. inversion NF; congruence.
    + destruct (frun s1 h) as [s2 xs2] eqn:Er. injection E as <- <-. inversion NF; subst. cbn [learnt]. eapply IH; eauto. eapply step_right; eauto.
Qed.
Lemma run_whole h : forall s (l : list (known V)) s' xs, all_right s l -> Forall whole (fevs s) -> Forall (fun p => honest (snd p) /\ proper (fst p)) h -> frun s h = (s', xs) -> Forall (fun x => fatal x = false) xs ->
  Forall whole (fevs s').
Proof.
  induction h as [|[o oc] h IH]; intros s l s' xs R W Ho E NF; cbn [frun] in E.
  - injection E as <- <-. exact W.
  - inversion Ho as [|? ? [H1 H2] H3]; subst. cbn in H1, H2. destruct (fstep s o oc) as [s1 x] eqn:Es. destruct (fatal x) eqn:Ef.
    + injection E as <- <-. inversion NF; congruence.
    + destruct (frun s1 h) as [s2 xs2] eqn:Er. injection E as <- <-. inversion NF; subst. eapply (IH s1 (learn l o oc x)); eauto; [eapply step_right; eauto|].
      assert (forall k, In k (uses o) -> k < length l) as U.
      { intros k Hk. unfold all_right in R. rewrite <- (Forall2_length _ _ _ R). destruct (Nat.lt_ge_cases k (length (fevs s))) as [|G]; auto. exfalso. apply nth_error_None in G.
        destruct o as [c v|c|c|c [v|] nc cr|k' c cr|k' c|k' c nc|j k'|k'|k']; cbn in Hk; try tauto; repeat (destruct Hk as [Hk|Hk]; [subst|]); try tauto; cbn [fstep] in Es;
          try (rewrite G in Es; injection Es as <- <-; discriminate).
        destruct (nth_error (fevs s) j); [rewrite G in Es|]; injection Es as <- <-; discriminate. }
      eapply step_whole; eauto.
Qed.

(** Any program, factories that make a new object or throw, copies that may throw: getMessage and getConstMessage of an
    event return a message with the content of the one it was made from.
    Missing: events for which copying the message has thrown before, and copies of them *)
Theorem C117_content_of_the_source_partial h s xs o oc s' k n v : Forall (fun p => honest (V := V) (snd p)) (h ++ [(o, oc)]) ->
  frun finit h = (s, xs) -> Forall (fun x => fatal x = false) xs -> fstep s o oc = (s', Got v) -> o = Get k \/ o = GetConst k ->
  nth_error (learnt [] h xs) k = Some n -> spoilt n = false -> v = source n.
Proof.
  intros Ho E NF Es Hk Hn S. apply Forall_app in Ho as [H1 H2]. inversion H2; subst. eapply step_got; eauto. eapply run_right; eauto. constructor.
Qed.
(** If no message is null and no factory empty, every call on existing events succeeds or throws an exception of the factory or the message *)
Theorem C117_only_exceptions h s xs o oc s' x : Forall (fun p => honest (V := V) (snd p) /\ proper (fst p)) (h ++ [(o, oc)]) ->
  frun finit h = (s, xs) -> Forall (fun x => fatal x = false) xs -> fstep s o oc = (s', x) -> (forall k, In k (uses o) -> k < length (learnt [] h xs)) ->
  (x = Failed Thrown /\ ~ nothing_fails oc) \/ (forall er, x <> Failed er).
Proof.
  intros Ho E NF Es U. apply Forall_app in Ho as [H1 H2]. inversion H2 as [|? ? [H3 H4]]; subst. cbn in H3, H4.
  assert (Forall (fun p => honest (V := V) (snd p)) h) as H1' by (eapply Forall_impl; [|exact H1]; cbn; tauto).
  assert (all_right (V := V) finit []) as R0 by constructor. pose proof (run_right _ _ _ _ _ R0 H1' E NF) as R.
  assert (Forall whole (fevs s)) as W by (eapply (run_whole h finit []); eauto; constructor).
  destruct (step_whole _ _ _ _ _ _ R H3 H4 W Es U) as [F _]. destruct x as [| |[]]; cbn in F; try discriminate; try (right; discriminate).
  left. split; auto. intros [(d & N1) N2]. clear - Es N1 N2.
  assert (forall (a : list V) e b c, get a e oc <> (b, c, Err Thrown)) as G.
  { intros a e b c. unfold get. destruct (fconst e || negb (fneed e)); [discriminate|]. destruct (fcopied e); [discriminate|]. destruct (negb (factory e)); [discriminate|]. rewrite N1, N2.
    destruct (fmsg e); [|discriminate]. destruct (nth_error _ _); discriminate. }
  assert (forall (a : list V) p, content a p <> Failed Thrown) as C by (intros a [p|]; cbn; [destruct (nth_error a p)|]; discriminate).
  destruct o as [c v|c|c|c [v|] nc cr|k' c cr|k' c|k' c nc|j k'|k'|k']; cbn [fstep] in Es; try discriminate;
    try (destruct (nth_error (fevs s) j); [|discriminate]); (destruct (nth_error (fevs s) k') as [e|]; [|discriminate]); try discriminate;
    try (destruct (get (fmem s) e oc) as [[b c'] [p|y]] eqn:Eg; [|injection Es as <- ->; now apply G in Eg]); try discriminate; injection Es as <- Es; now apply C in Es.
Qed.

(** Callbacks are never given an incomplete copy: whatever network of filters an event is passed to and whatever throws, every callback
    that is called sees the message; if nothing throws all are called, else the exception reaches the caller *)
Theorem C117_callbacks_see_whole_messages d (h : list V) c a v nc l ocs os r : nth_error h a = Some v -> Forall honest ocs ->
  fsignal d h (mkF c (Some a) None nc true) l ocs = (os, r) ->
  os = repeat (Some v) (length os) /\
  (Forall nothing_fails ocs -> r = None) /\
  match r with
  | None => length os = length (flat_map users l)
  | Some er => er = Thrown /\ length os < length (flat_map users l)
  end.
Proof.
  intros Ha Ho E. unfold fsignal in E. destruct (fcall d h _ (Filter l) ocs) as [[[h' ocs'] os'] r'] eqn:Ec. injection E as <- <-.
  apply fcall_sees with (a := a) (v := v) in Ec as (_ & _ & _ & A & B); auto. split; auto. split; [intros N; destruct r'; tauto|]. cbn [users] in B. destruct r'; tauto.
Qed.

(** A null message can be signalled if and only if every callback takes a pointer or event, and none of those with write access needs
    a copy; then all callbacks are given null.  Otherwise null is dereferenced (or a missing factory called) *)
Theorem C117_null_messages d (h : list V) c nc cr l :
  (takes_null nc (Filter l) -> fsignal d h (mkF c None None nc cr) l [] = (repeat None (length (flat_map users l)), None)) /\
  (~ takes_null nc (Filter l) -> exists os er, fsignal d h (mkF c None None nc cr) l [] = (os, Some er) /\ (er = UB \/ er = AssertFailed)).
Proof.
  unfold fsignal. destruct (fcall_null d (Filter l) h (mkF c None None nc cr) eq_refl) as [A B]. split.
  - intros N. destruct (A N) as (h' & ->). reflexivity.
  - intros N. destruct (B N) as (h' & os & er & -> & Her). eauto.
Qed.

(** Copying the message throws: the event keeps the incomplete copy, and from then on returns it as if all were well *)
Theorem C117_incomplete_copy_refuted s k a v nc d p : nth_error (fevs s) k = Some (mkF false (Some a) None nc true) -> nc = true -> nth_error (fmem s) a = Some v ->
  exists s', fstep s (Get k) (mkOutcome (Fresh d) (Some p)) = (s', Failed Thrown) /\ forall oc : outcome V, snd (fstep s' (Get k) oc) = Got (Some p).
Proof.
  intros Hk -> Ha. assert (a < length (fmem s)) as La by (apply nth_error_Some; congruence).
  cbn [fstep]. rewrite Hk. unfold get at 1. cbn [fconst fneed fcopied factory fmsg orb negb created assigned]. rewrite nth_error_app1, Ha, upd_last by auto. eexists. split; [reflexivity|].
  intros oc. cbn [fstep fevs fmem]. rewrite nth_error_upd_same by (apply nth_error_Some; congruence). unfold get. cbn [fconst fneed fcopied orb negb snd content]. now rewrite nth_error_app2, Nat.sub_diag by lia.
Qed.
(** An event made by the default constructor has no factory: getMessage fails an assertion *)
Theorem C117_default_event_refuted (oc1 oc2 : outcome V) : snd (frun finit [(Default false, oc1); (Get 0, oc2)]) = [Made; Failed AssertFailed].
Proof. reflexivity. Qed.
(** An event made of a null pointer: getMessage of a const event returns it, that of an event that is not const
    dereferences it when it copies, but not if the factory throws first *)
Theorem C117_null_event_refuted (d : V) oc (w : option V) :
  snd (frun finit [(NewNull true, oc); (Get 0, oc); (GetConst 0, oc)]) = [Made; Got None; Got None] /\
  snd (frun finit [(NewNull false, oc); (Get 0, mkOutcome (Fresh d) w)]) = [Made; Failed UB] /\
  snd (frun finit [(NewNull false, oc); (Get 0, mkOutcome CreateThrows w)]) = [Made; Failed Thrown] /\
  snd (frun finit [(NewNull false, oc); (GetConst 0, oc)]) = [Made; Got None].
Proof. do 3 (split; [reflexivity|]). reflexivity. Qed.
(** A factory that returns an object in use: another event's message changes *)
Theorem C117_shared_object_refuted (v w : V) oc : snd (frun finit [(NewPtr true v, oc); (NewPtr false w, oc); (Get 1, mkOutcome (Existing 0) None); (GetConst 0, oc)]) =
  [Made; Made; Got (Some w); Got (Some w)].
Proof. reflexivity. Qed.
End Props.

(** Factories and copies that fail and succeed: the failed factory leaves no trace, the failed copy does *)
Definition good : outcome nat := mkOutcome (Fresh 0) None.
Definition no_memory : outcome nat := mkOutcome CreateThrows None.
Definition half_copied : outcome nat := mkOutcome (Fresh 0) (Some 4).
Definition trial : list (fop nat * outcome nat) :=
  [(NewPtr false 7, good); (Get 0, no_memory); (Get 0, good); (Copy 0 true, good); (NewPtr false 8, good); (Get 2, half_copied); (Copy 2 true, good); (GetConst 3, good); (Get 1, good)].
Example C117_example : snd (frun finit trial) = [Made; Failed Thrown; Got (Some 7); Made; Made; Failed Thrown; Made; Got (Some 4); Got (Some 7)] /\
  learnt [] trial (snd (frun finit trial)) = [mkKnown (Some 7) false; mkKnown (Some 7) false; mkKnown (Some 8) true; mkKnown (Some 8) true] /\
  Forall (fun p => honest (snd p) /\ proper (fst p)) trial.
Proof. split; [reflexivity|]. split; [reflexivity|]. repeat constructor. Qed.
(** The second callback's copy fails: the first has seen the message, the third is not called *)
Example C117_example_signal : fsignal 0 [7] (mkF true (Some 0) None true true) [User MutShared; Filter [User ConstRef; User EventMut]; User ByValue] [good; good; half_copied] = ([Some 7; Some 7], Some Thrown) /\
  fsignal 0 [7] (mkF true (Some 0) None true true) [User MutShared; Filter [User ConstRef; User EventMut]; User ByValue] [] = ([Some 7; Some 7; Some 7; Some 7], None).
Proof. split; reflexivity. Qed.
Example C117_example_null : takes_null false (Filter [Filter [User MutShared]]) /\ takes_null true (Filter [User ConstShared; User EventConst]) /\ ~ takes_null false (Filter [User MutShared; User EventConst]).
Proof. cbn. repeat split; auto; try discriminate. intros [[_ N] _]. specialize (N eq_refl). discriminate. Qed.

Print Assumptions C117_content_of_the_source_partial.
Print Assumptions C117_only_exceptions.
Print Assumptions C117_callbacks_see_whole_messages.
Print Assumptions C117_null_messages.
Print Assumptions C117_incomplete_copy_refuted.
Print Assumptions C117_default_event_refuted.
Print Assumptions C117_shared_object_refuted.
Print Assumptions C117_null_event_refuted.
