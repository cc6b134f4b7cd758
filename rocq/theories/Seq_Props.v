(** Properties C39-C43: TimeSequencer.  [run stamp q d init h] is a sequencer with queue
    size [q] and delay [d] after the history [h] of additions and timer ticks: its state
    and the messages passed on, in order.  Clock readings are arbitrary. *)
From Coq Require Import List Arith ZArith Lia Bool Sorted Permutation.
From Verif Require Import Base RclTime Trace Seq_Model Seq_Spec Seq_Proofs.
Import ListNotations.
Local Open Scope Z_scope.

Section Props.
Context {E : Type} (stamp : E -> time).
Hypothesis Hsys : system_stamps stamp.
Notation t_ := (at_ns stamp).

(** C39: over the whole life, messages are passed on in non-decreasing stamp order. *)
Theorem C39_seq_ordered q d h s outs :
  run stamp q d init h = Ok (s, outs) -> nondecreasing t_ outs.
Proof.
  intros Hr. destruct (run_rinv stamp q d Hsys h) as (s' & o' & Hr' & _ & H & _).
  rewrite Hr in Hr'. now injection Hr' as <- <-.
Qed.

(** C39: and messages with equal stamps keep their arrival order. *)
Theorem C39_seq_ties_fifo q d h s outs t :
  run stamp q d init h = Ok (s, outs) ->
  subseq (with_stamp stamp t (outs ++ messages s)) (with_stamp stamp t (added h)).
Proof.
  intros Hr. destruct (run_rinv stamp q d Hsys h) as (s' & o' & Hr' & _ & _ & _ & _ & _ & H & _).
  rewrite Hr in Hr'. injection Hr' as <- <-. apply H.
Qed.

(** C40: a tick passes on a message only if the clock, read for this message, shows
    stamp + delay or later. *)
Theorem C40_seq_never_early q d h s outs nows s' o k e :
  run stamp q d init h = Ok (s, outs) -> step stamp q d s (Tick nows) = Ok (s', o) ->
  nth_error o k = Some e -> t_ e + d <= nows k.
Proof.
  intros Hr Hs Hk. destruct (run_rinv stamp q d Hsys h) as (s1 & o1 & Hr' & (_ & HC & _) & _).
  rewrite Hr in Hr'. injection Hr' as <- <-.
  destruct (dispatch_ok stamp d Hsys nows (messages s) (last_time s) HC) as (rest & o' & last' & H1 & _ & _ & H4 & _).
  unfold step in Hs. rewrite H1 in Hs. injection Hs as <- <-. eauto.
Qed.

(** C40: additions pass on nothing. *)
Theorem C40_seq_add_passes_nothing q d s e s' o :
  step stamp q d s (Add e) = Ok (s', o) -> o = [].
Proof. unfold step. destruct (add stamp q s e); cbn; [|discriminate]. intros H. now injection H. Qed.

(** C40: after a tick nothing that was due at its start is left, provided the clock does
    not run backwards meanwhile. *)
Theorem C40_seq_delivers_due q d h s outs nows s' o e :
  run stamp q d init h = Ok (s, outs) -> step stamp q d s (Tick nows) = Ok (s', o) ->
  monotone nows -> In e (messages s') -> nows 0%nat < t_ e + d.
Proof.
  intros Hr Hs HM He. destruct (run_rinv stamp q d Hsys h) as (s1 & o1 & Hr' & (HS & HC & _) & _).
  rewrite Hr in Hr'. injection Hr' as <- <-.
  destruct (dispatch_ok stamp d Hsys nows (messages s) (last_time s) HC) as (rest & o' & last' & H1 & H2 & _ & _ & H5 & _).
  unfold step in Hs. rewrite H1 in Hs. injection Hs as <- <-. cbn in He.
  destruct rest as [|x rest]; [destruct He|]. specialize (H5 x rest eq_refl).
  rewrite H2 in HS. apply StronglySorted_app in HS as (_ & HS & _). inversion HS as [|? ? _ Hx]; subst.
  rewrite Forall_forall in Hx. specialize (HM 0%nat (length o') (Nat.le_0_l _)).
  destruct He as [<-|He]; [lia|]. apply Hx in He. lia.
Qed.

(** C41: no history makes the sequencer fail, and every added message is delivered,
    rejected, evicted or queued, exactly once.  A rejected one was stamped before the
    epoch or before a message that had already been delivered; an evicted one was an
    oldest one when an addition exceeded the queue size. *)
Theorem C41_seq_accounting q d h :
  exists s outs rejected evicted,
    run stamp q d init h = Ok (s, outs) /\
    Permutation (added h) (outs ++ rejected ++ evicted ++ messages s) /\
    (forall r, In r rejected ->
       exists h1 h2 s1 o1, h = h1 ++ Add r :: h2 /\ run stamp q d init h1 = Ok (s1, o1) /\
         (t_ r < 0 \/ exists x, In x o1 /\ t_ r < t_ x)) /\
    (forall r, In r evicted ->
       exists h1 h2 e s1 o1, h = h1 ++ Add e :: h2 /\ run stamp q d init h1 = Ok (s1, o1) /\
         q <> 0%nat /\ (q <= length (messages s1))%nat /\ In r (e :: messages s1) /\
         (forall x, In x (e :: messages s1) -> t_ r <= t_ x)).
Proof.
  destruct (run_rinv stamp q d Hsys h) as (s & outs & Hr & _ & _ & _ & _ & _ & _ & R & V & HP & HR & HV).
  exists s, outs, R, V. auto.
Qed.

(** C41: and conversely a message older than a delivered one leaves no trace. *)
Theorem C41_seq_late_ignored q d h s outs x e :
  run stamp q d init h = Ok (s, outs) -> In x outs -> t_ e < t_ x ->
  step stamp q d s (Add e) = Ok (s, []).
Proof.
  intros Hr Hx Hlt. destruct (run_rinv stamp q d Hsys h) as (s1 & o1 & Hr' & (_ & HC & _) & _ & HL & _).
  rewrite Hr in Hr'. injection Hr' as <- <-. apply HL in Hx.
  unfold step, add, time_lt. rewrite Hsys, HC. cbn [clock_eqb bind]. fold (t_ e).
  destruct (Z.ltb_spec (t_ e) (ns (last_time s))); [reflexivity|lia].
Qed.

(** C42: the queue bound. *)
Theorem C42_seq_bounded q d h s outs :
  run stamp q d init h = Ok (s, outs) -> q <> 0%nat -> (length (messages s) <= q)%nat.
Proof.
  intros Hr. destruct (run_rinv stamp q d Hsys h) as (s' & o' & Hr' & _ & _ & _ & _ & H & _).
  rewrite Hr in Hr'. now injection Hr' as <- <-.
Qed.

(** C42: what an overflowing addition really does: all messages with the oldest stamp
    are evicted, nothing else. *)
Theorem C42_seq_eviction q d h s outs e s' o :
  run stamp q d init h = Ok (s, outs) -> q <> 0%nat -> length (messages s) = q ->
  (forall x, In x outs -> t_ x <= t_ e) -> 0 <= t_ e ->
  step stamp q d s (Add e) = Ok (s', o) ->
  exists m, (exists x, In x (e :: messages s) /\ t_ x = m) /\
    (forall x, In x (e :: messages s) -> m <= t_ x) /\
    Permutation (messages s') (filter (fun x => m <? t_ x) (e :: messages s)).
Proof.
  intros Hr Hq Hlen Hx He Hs.
  destruct (run_rinv stamp q d Hsys h) as (s1 & o1 & Hr' & HI & _ & _ & HL & _).
  rewrite Hr in Hr'. injection Hr' as <- <-.
  destruct (add_ok stamp q Hsys s e HI) as (s2 & Ha & Hat & _).
  unfold step in Hs. rewrite Ha in Hs. injection Hs as <- <-.
  inversion Hat as [Hlt Heq|ms Hge Hq' HPm HWm Heq|ms m Hge Hq' Hlen' HPm [Ho1 Ho2] HWm Heq]; subst; [exfalso| lia |].
  - destruct HL as [H0|(x & Hx1 & Hx2)]; [lia|]. apply Hx in Hx1. lia.
  - exists m. split; auto. split; auto. cbn [messages].
    eapply Permutation_trans with (filter (fun x => negb (t_ x =? m)) (e :: messages s)).
    { apply Permutation_sym. clear -HPm. induction HPm; cbn; auto.
      - destruct (negb (t_ x =? m)); auto.
      - destruct (negb (t_ x =? m)), (negb (t_ y =? m)); auto. apply perm_swap.
      - eapply Permutation_trans; eauto. }
    erewrite filter_ext_in; [reflexivity|]. intros x Hx'. apply Ho2 in Hx'.
    destruct (Z.eqb_spec (t_ x) m), (Z.ltb_spec m (t_ x)); cbn; auto; lia.
Qed.

(** C42 for distinct stamps (partial: with equal stamps it is false, see below): after
    any additions the newest q are queued, in stamp order. *)
Theorem C42_seq_keeps_newest_partial q d es :
  (forall e, In e es -> 0 <= t_ e) -> NoDup (map t_ es) -> q <> 0%nat ->
  exists s evicted, run stamp q d init (map Add es) = Ok (s, []) /\
    Permutation es (evicted ++ messages s) /\
    length (messages s) = Nat.min q (length es) /\
    nondecreasing t_ (messages s) /\
    (forall v m, In v evicted -> In m (messages s) -> t_ v < t_ m).
Proof.
  intros H1 H2 H3. destruct (adds_keep_newest stamp q d Hsys es H1 H2 H3) as (s & V & Hr & _ & (HS & _) & HP & HL & HV & _).
  exists s, V. auto.
Qed.

(** C43 restricted to system-clock stamps: nothing throws, ever. *)
Theorem C43_seq_system_stamps_never_fail_partial q d h :
  exists s outs, run stamp q d init h = Ok (s, outs).
Proof. destruct (run_rinv stamp q d Hsys h) as (s & o & H & _). eauto. Qed.
End Props.

(** C42 with equal stamps: the third of three equally stamped messages empties a queue
    of size two. *)
Theorem C42_seq_keeps_newest_refuted :
  exists h : list (op Z), exists s,
    run (fun z => mkTime z SystemClock) 2 0 init h = Ok (s, []) /\
    added h = [5; 5; 5] /\ messages s = [].
Proof. exists [Add 5; Add 5; Add 5]. eexists. repeat split. Qed.

(** C43: the header stamp of a message is a ROS-clock time, which cannot be compared
    with the default-constructed (system-clock) last_time_: every addition of a message
    with a header to a sequencer that has delivered nothing throws. *)
Theorem C43_seq_header_stamps_refuted :
  forall q d (e : msg_time) t s,
    time_of_header e = Ok t ->
    add (fun _ : msg_time => t) q init e = Err Thrown /\
    (clk (last_time s) = SystemClock -> add (fun _ : msg_time => t) q s e = Err Thrown) /\
    run (fun _ : msg_time => t) q d init [Add e] = Err Thrown.
Proof.
  intros q d e t s H. unfold time_of_header in H. destruct (sec e <? 0); [discriminate|]. injection H as <-.
  split; [reflexivity|]. split; [|reflexivity]. intros Hc. unfold add, time_lt. cbn. now rewrite Hc.
Qed.

(** ** Non-vacuity: out-of-order arrival, an eviction, a late message, a slow tick. *)
Definition ex_stamp (p : nat * Z) : time := mkTime (snd p) SystemClock.
Definition ex_h : list (op (nat * Z)) :=
  [Add (0%nat, 30); Add (1%nat, 10); Add (2%nat, 20); Add (3%nat, 20);
   Tick (fun k => 24 + Z.of_nat k); Add (4%nat, 15); Add (5%nat, 25); Tick (fun _ => 40)].
Example C39_C43_nonvacuous :
  system_stamps ex_stamp /\ monotone (fun k => 24 + Z.of_nat k) /\
  run ex_stamp 3 5 init (firstn 4 ex_h) =
    Ok (mkState [(2%nat, 20); (3%nat, 20); (0%nat, 30)] time_default, []) /\
  run ex_stamp 3 5 init (firstn 5 ex_h) =
    Ok (mkState [(2%nat, 20); (3%nat, 20); (0%nat, 30)] time_default, []) /\
  run ex_stamp 3 4 init ex_h =
    Ok (mkState [] (mkTime 30 SystemClock), [(2%nat, 20); (3%nat, 20); (5%nat, 25); (0%nat, 30)]) /\
  (exists t, time_of_header (mkMsgTime 1 500) = Ok t).
Proof.
  split; [intros e; reflexivity|]. split; [intros a b Hab; lia|].
  repeat split. eexists; reflexivity.
Qed.

Print Assumptions C39_seq_ordered.
Print Assumptions C39_seq_ties_fifo.
Print Assumptions C40_seq_never_early.
Print Assumptions C40_seq_add_passes_nothing.
Print Assumptions C40_seq_delivers_due.
Print Assumptions C41_seq_accounting.
Print Assumptions C41_seq_late_ignored.
Print Assumptions C42_seq_bounded.
Print Assumptions C42_seq_eviction.
Print Assumptions C42_seq_keeps_newest_partial.
Print Assumptions C42_seq_keeps_newest_refuted.
Print Assumptions C43_seq_system_stamps_never_fail_partial.
Print Assumptions C43_seq_header_stamps_refuted.
