(** Property C107: a TimeSequencer puts messages into order.  If every message is added before it is due and the
    queue has room for what waits, then nothing is lost and what is passed on is the added messages, sorted by stamp,
    messages with equal stamps in the order of arrival.  Clock readings are arbitrary otherwise. *)
From Coq Require Import List Arith ZArith Lia Bool Sorted Permutation.
From Verif Require Import Base RclTime Trace Seq_Model Seq_Spec Seq_Proofs SeqTime_Spec SeqTime_Proofs.
Import ListNotations.
Local Open Scope Z_scope.

Section Props.
Context {E : Type} (stamp : E -> time).
Hypothesis Hsys : system_stamps stamp.
Notation t_ := (at_ns stamp).

(** C107: what was passed on, followed by what is queued, is the stable sort of what was added. *)
Theorem C107_seq_sorts q d h :
  in_time stamp d h -> queue_suffices stamp q d h ->
  exists s outs, run stamp q d init h = Ok (s, outs) /\ stably_sorted stamp (added h) (outs ++ messages s).
Proof.
  intros HT HQ. destruct (run_sorts stamp q d Hsys h HT HQ) as (s & outs & Hr & HS & _). eauto.
Qed.

(** C107: in particular no message is rejected or evicted. *)
Theorem C107_seq_nothing_lost q d h s outs :
  in_time stamp d h -> queue_suffices stamp q d h -> run stamp q d init h = Ok (s, outs) ->
  Permutation (added h) (outs ++ messages s).
Proof.
  intros HT HQ Hr. destruct (run_sorts stamp q d Hsys h HT HQ) as (s' & outs' & Hr' & [_ HW] & _).
  rewrite Hr in Hr'. injection Hr' as <- <-.
  destruct (run_rinv stamp q d Hsys h) as (s1 & o1 & Hr1 & _ & _ & _ & _ & _ & _ & R & V & HP & _).
  rewrite Hr in Hr1. injection Hr1 as <- <-.
  assert (HL : R ++ V = []).
  { destruct (R ++ V) as [|x l] eqn:He; auto. exfalso.
    assert (HP2 : Permutation (added h) ((outs ++ messages s) ++ x :: l)).
    { rewrite HP, <- He, <- !app_assoc. apply Permutation_app_head. rewrite (Permutation_app_comm (messages s)).
      now rewrite <- !app_assoc. }
    apply (filter_perm (fun e => t_ e =? t_ x)) in HP2. fold (with_stamp stamp (t_ x) (added h)) in HP2.
    rewrite <- HW in HP2. unfold with_stamp in HP2. rewrite (filter_app _ (outs ++ messages s)) in HP2. cbn in HP2.
    rewrite Z.eqb_refl in HP2. apply Permutation_length in HP2. rewrite app_length in HP2. cbn in HP2. lia. }
  apply app_eq_nil in HL as [-> ->]. exact HP.
Qed.

(** C107: after a tick at which everything was due, the sorted messages have been passed on. *)
Theorem C107_seq_passes_sorted q d h nows :
  in_time stamp d h -> queue_suffices stamp q d (h ++ [Tick nows]) -> monotone nows ->
  (forall e, In e (added h) -> t_ e + d <= nows 0%nat) ->
  exists s outs, run stamp q d init (h ++ [Tick nows]) = Ok (s, outs) /\ messages s = [] /\
    stably_sorted stamp (added h) outs.
Proof.
  intros HT HQ HM HD.
  assert (HT' : in_time stamp d (h ++ [Tick nows])).
  { intros h1 e h2 Hh. destruct h2 as [|o h2] using rev_ind.
    - apply app_inj_tail in Hh as [_ H]. discriminate.
    - rewrite app_comm_cons, app_assoc in Hh. apply app_inj_tail in Hh as [-> _]. apply (HT h1 e h2 eq_refl). }
  destruct (run_sorts stamp q d Hsys _ HT' HQ) as (s & outs & Hr & HS & _).
  assert (HA : added (h ++ [Tick nows]) = added h) by (rewrite added_snoc; apply app_nil_r). rewrite HA in HS.
  assert (Hm : messages s = []).
  { pose proof Hr as Hr2. rewrite run_snoc in Hr2.
    destruct (run stamp q d init h) as [[s0 o0]|] eqn:Hr0; [|discriminate]. cbn [bind] in Hr2.
    destruct (step stamp q d s0 (Tick nows)) as [[s1 o1]|] eqn:Hs; [|discriminate]. cbn [bind] in Hr2. injection Hr2 as <- _.
    destruct (messages s1) as [|x l] eqn:Hm; auto. exfalso.
    assert (Hx : nows 0%nat < t_ x + d).
    { destruct (run_rinv stamp q d Hsys h) as (s2 & o2 & Hr' & (HSm & HC & _) & _). rewrite Hr0 in Hr'. injection Hr' as <- <-.
      destruct (dispatch_ok stamp d Hsys nows (messages s0) (last_time s0) HC) as (rest & o' & last' & H1 & _ & _ & _ & H5 & _).
      unfold step in Hs. rewrite H1 in Hs. injection Hs as <- <-. cbn in Hm. subst rest.
      specialize (H5 x l eq_refl). specialize (HM 0%nat (length o') (Nat.le_0_l _)). lia. }
    assert (Hin : In x (added h)).
    { destruct HS as [_ HW]. specialize (HW (t_ x)).
      assert (In x (with_stamp stamp (t_ x) (added h))) as Hi.
      { rewrite <- HW. apply filter_In. split; [apply in_or_app; right; now left|apply Z.eqb_refl]. }
      now apply filter_In in Hi. }
    apply HD in Hin. lia. }
  exists s, outs. split; auto. split; auto. now rewrite Hm, app_nil_r in HS.
Qed.

(** C107: so the order of arrival does not matter, as long as messages with equal stamps keep their order: two
    sequencers, whatever their queues, delays and ticks, agree. *)
Theorem C107_seq_order_independent q d h s outs q' d' h' s' outs' :
  in_time stamp d h -> queue_suffices stamp q d h -> run stamp q d init h = Ok (s, outs) ->
  in_time stamp d' h' -> queue_suffices stamp q' d' h' -> run stamp q' d' init h' = Ok (s', outs') ->
  (forall t, with_stamp stamp t (added h) = with_stamp stamp t (added h')) ->
  outs ++ messages s = outs' ++ messages s'.
Proof.
  intros HT HQ Hr HT' HQ' Hr' HE.
  destruct (run_sorts stamp q d Hsys h HT HQ) as (s1 & o1 & H1 & HS & _). rewrite Hr in H1. injection H1 as <- <-.
  destruct (run_sorts stamp q' d' Hsys h' HT' HQ') as (s1 & o1 & H1 & [HS' HW'] & _). rewrite Hr' in H1. injection H1 as <- <-.
  apply (stably_sorted_unique stamp (added h)); auto. split; auto. intros t. now rewrite HW', HE.
Qed.

(** C107: [stably_sorted] determines the list, so the theorems above say exactly what is passed on. *)
Theorem C107_seq_sort_unique m l l' : stably_sorted stamp m l -> stably_sorted stamp m l' -> l = l'.
Proof. apply stably_sorted_unique. Qed.
End Props.

(** Messages are pairs of an identifier and a stamp. *)
Definition xstamp (e : nat * Z) : time := mkTime (snd e) SystemClock.
Definition xop (l : list (nat * Z)) : list (op (nat * Z)) := map Add l.
Definition xtick (t : Z) : op (nat * Z) := Tick (fun _ => t).

(** Non-vacuity: out-of-order arrival, two ticks, a queue of two; waiting never exceeds two. *)
Definition xh : list (op (nat * Z)) :=
  xop [(0%nat, 20); (1%nat, 10)] ++ [xtick 25] ++ xop [(2%nat, 20)].
Example xh_in_time : in_time xstamp 10 xh.
Proof.
  intros h1 e h2 H. unfold xh, xop, xtick in H. cbn in H.
  destruct h1 as [|a [|b [|c [|c4 [|c5 h1]]]]]; cbn in H; try (injection H; intros; subst); try discriminate;
    (split; [cbn; lia|]); intros nows k Hin; cbn in Hin; intuition (try discriminate);
    try (match goal with H : Tick _ = Tick _ |- _ => injection H as <- end; cbn; lia);
    exfalso; match goal with H : [] = _ ++ _ :: _ |- _ => now destruct h1 end.
Qed.
Example xh_room : queue_suffices xstamp 2 10 xh.
Proof.
  right. split.
  - intros nows Hin. cbn in Hin. destruct Hin as [H|[H|[H|[H|[]]]]]; try discriminate. injection H as <-. intros a b _. lia.
  - intros h1 h2 H. unfold xh, xop, xtick in H. cbn in H.
    destruct h1 as [|a [|b [|c [|c4 [|c5 h1]]]]]; cbn in H; try (injection H; intros; subst); try discriminate; cbn; lia.
Qed.
Example xh_run : match run xstamp 2 10 init (xh ++ [xtick 30]) with
  | Ok (s, outs) => outs = [(1%nat, 10); (0%nat, 20); (2%nat, 20)] /\ messages s = []
  | Err _ => False end.
Proof. cbn. auto. Qed.

(** Without room messages are lost, here all of them. *)
Example small_queue_loses : match run xstamp 1 10 init (xh ++ [xtick 30]) with
  | Ok (s, outs) => outs = [] | Err _ => False end.
Proof. cbn. auto. Qed.

(** A late message is lost. *)
Example late_lost : match run xstamp 0 10 init (xop [(0%nat, 20)] ++ [xtick 30] ++ xop [(1%nat, 10)] ++ [xtick 40]) with
  | Ok (s, outs) => outs = [(0%nat, 20)] | Err _ => False end.
Proof. cbn. auto. Qed.

Print Assumptions C107_seq_sorts.
Print Assumptions C107_seq_nothing_lost.
Print Assumptions C107_seq_passes_sorted.
Print Assumptions C107_seq_order_independent.
Print Assumptions C107_seq_sort_unique.
