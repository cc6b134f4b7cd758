(** C119: a TimeSequencer whose timer keeps ticking. *)
From Coq Require Import List Arith ZArith Lia Bool Sorted Permutation.
From Verif Require Import Base RclTime Trace Seq_Model Seq_Spec Seq_Proofs Seq_Props SeqTime_Spec SeqTime_Proofs SeqTime_Props SeqLate_Spec SeqLate_Proofs.
Import ListNotations.
Local Open Scope Z_scope.

Section Props.
Context {E : Type} (stamp : E -> time).
Hypothesis Hsys : system_stamps stamp.
Notation t_ := (at_ns stamp).
Notation tops := (list (Z * op E)).

Lemma run_split q d (h1 h2 : list (op E)) s outs : run stamp q d init (h1 ++ h2) = Ok (s, outs) ->
  exists s1 o1 o2, run stamp q d init h1 = Ok (s1, o1) /\ outs = o1 ++ o2.
Proof.
  revert s outs. induction h2 as [|o h2 IH] using rev_ind; intros s outs R; [rewrite app_nil_r in R; exists s, outs, []; now rewrite app_nil_r|].
  rewrite app_assoc, run_snoc in R. destruct (run stamp q d init (h1 ++ h2)) as [[s2 o2]|]; [|discriminate]. cbn in R. destruct (step stamp q d s2 o) as [[s3 o3]|]; [|discriminate]. cbn in R. injection R as <- <-.
  destruct (IH _ _ eq_refl) as (s1 & o1 & o4 & R1 & ->). exists s1, o1, (o4 ++ o3). now rewrite app_assoc.
Qed.
Lemma added_app (a b : list (op E)) : added (a ++ b) = added a ++ added b.
Proof. apply flat_map_app. Qed.

Lemma in_time_app d (a b : list (op E)) : in_time stamp d (a ++ b) -> in_time stamp d a.
Proof. intros H h1 e h2 ->. apply (H h1 e (h2 ++ b)). now rewrite <- app_assoc. Qed.
Lemma suffices_app q d (a b : list (op E)) : queue_suffices stamp q d (a ++ b) -> queue_suffices stamp q d a.
Proof. intros [H|[H1 H2]]; [now left|right]. split; [intros nows Hn; apply H1, in_or_app; auto|]. intros h1 h2 ->. apply (H2 h1 (h2 ++ b)). now rewrite <- app_assoc. Qed.

(** The timer ticks at least every [u] ns, messages arrive less than the delay after they are stamped, and the queue is
    unlimited or takes the messages of delay and update period.  Then at any time [T] exactly the messages
    passed on and those still waiting have arrived, in the order of their stamps; no message is passed on
    before it is due, and none waits for longer than the update period after that *)
Theorem C119_in_time q d u t0 T (h : tops) : 0 <= d -> 0 <= u -> timed t0 T h -> ticking t0 T u h -> prompt stamp d h ->
  q = 0%nat \/ rate q (d + u) h ->
  exists s outs, run stamp q d init (calls h) = Ok (s, outs) /\ stably_sorted stamp (map snd (arrivals h)) (outs ++ messages s) /\
    Permutation (map snd (arrivals h)) (outs ++ messages s) /\
    (forall e, In e outs -> t_ e + d <= T) /\ (forall e, In e (messages s) -> T < t_ e + d + u).
Proof.
  intros Hd Hu Ht Htick P Q. assert (in_time stamp d (calls h)) as IT by (eapply prompt_in_time; eauto).
  assert (queue_suffices stamp q d (calls h)) as QS by (destruct Q as [Q|Q]; [now left|eapply waits_lately; eauto]).
  destruct (run_sorts stamp q d Hsys (calls h) IT QS) as (s & outs & R & S & O & _). exists s, outs. rewrite arrivals_added.
  pose proof (C107_seq_nothing_lost stamp Hsys q d _ _ _ IT QS R) as N. repeat split; auto; try apply S.
  - intros e He. destruct (O e He) as (nows & k & Hin & L). apply in_map_iff in Hin as ([a o] & Eo & Hin). cbn in Eo. subst o. destruct (timed_tick _ _ _ _ _ k Ht Hin) as (_ & _ & L'). lia.
  - intros e He. destruct (Z.lt_ge_cases T (t_ e + d + u)) as [|Le]; auto. exfalso.
    assert (exists A, In (A, e) (arrivals h)) as (A & HA).
    { assert (In e (added (calls h))) as Hin by (apply (Permutation_in _ (Permutation_sym N)), in_or_app; auto). rewrite <- arrivals_added in Hin. apply in_map_iff in Hin as ([A x] & Ex & Hin). cbn in Ex. subst x. eauto. }
    destruct (P _ _ HA) as [P1 P2]. apply arrivals_in in HA. pose proof (timed_bounds _ _ _ _ _ Ht HA) as BA.
    destruct (Htick (T - u)) as (a & nows & Hin & La); [lia|lia|]. apply in_split in Hin as (g1 & g2 & Eh).
    assert (calls h = (calls g1 ++ [Tick nows]) ++ calls g2) as Ec by (rewrite Eh; unfold calls; rewrite map_app; cbn; now rewrite <- app_assoc).
    pose proof R as R'. rewrite Ec in R'. destruct (run_split _ _ _ _ _ _ R') as (s1 & o1 & o2 & R1 & ->).
    rewrite Ec in IT, QS. pose proof (C107_seq_nothing_lost stamp Hsys q d _ _ _ (in_time_app _ _ _ IT) (suffices_app _ _ _ _ QS) R1) as N1.
    rewrite Ec, added_app, <- app_assoc in N. rewrite N1, <- app_assoc in N. apply Permutation_app_inv_l in N.
    assert (In e (messages s1 ++ added (calls g2))) as He2 by (apply (Permutation_in _ (Permutation_sym N)), in_or_app; auto).
    rewrite Eh in Ht. apply timed_app in Ht as (b & _ & Ht). cbn in Ht. destruct Ht as (_ & H0 & HM & c & Hc & Ht). apply in_app_or in He2 as [He2|He2].
    + pose proof R1 as R1'. rewrite run_snoc in R1'. destruct (run stamp q d init (calls g1)) as [[s0 o0]|] eqn:R0; [|discriminate]. cbn [bind] in R1'.
      destruct (step stamp q d s0 (Tick nows)) as [[s1' o1']|] eqn:St; [|discriminate]. cbn in R1'. injection R1' as -> _.
      pose proof (C40_seq_delivers_due stamp Hsys q d _ _ _ _ _ _ _ R0 St HM He2). lia.
    + rewrite <- arrivals_added in He2. apply in_map_iff in He2 as ([A' x] & Ex & He2). cbn in Ex. subst x.
      destruct (P A' e) as [_ P3]; [rewrite Eh, arrivals_app; apply in_or_app; right; exact He2|]. apply arrivals_in in He2. destruct (timed_bounds _ _ _ _ _ Ht He2). specialize (Hc 0%nat). lia.
Qed.

(** In particular every message is passed on at most one update period after it is due *)
Theorem C119_at_most_one_period_late q d u t0 T (h : tops) s outs : 0 <= d -> 0 <= u -> timed t0 T h -> ticking t0 T u h -> prompt stamp d h ->
  q = 0%nat \/ rate q (d + u) h -> run stamp q d init (calls h) = Ok (s, outs) ->
  forall a e, In (a, e) (arrivals h) -> t_ e + d + u <= T -> In e outs.
Proof.
  intros Hd Hu Ht Htick P Q R a e Ha L. destruct (C119_in_time q d u t0 T h Hd Hu Ht Htick P Q) as (s' & outs' & R' & _ & N & _ & M). rewrite R in R'. injection R' as <- <-.
  apply (in_map snd) in Ha. cbn in Ha. apply (Permutation_in _ N) in Ha. apply in_app_or in Ha as [|Ha]; auto. apply M in Ha. lia.
Qed.
End Props.

Module LEx.
  Definition st (z : Z) : time := mkTime z SystemClock.
  Definition tick (t : Z) : Z * op Z := (t, Tick (fun _ => t)).
  Definition add (t z : Z) : Z * op Z := (t, Add z).
  (** Delay 10, ticks at 9, 19, 29; messages are their stamps and arrive out of order *)
  Definition h : list (Z * op Z) := [add 4 3; add 5 0; tick 9; add 11 8; tick 19; add 19 14; tick 29; add 29 20].
  (** ticks at 9 and 19 only *)
  Definition h2 : list (Z * op Z) := [add 0 0; tick 9; add 11 11; tick 19].
End LEx.
Ltac tick_ t := split; [lia|]; split; [reflexivity|]; split; [intros ? ? ?; lia|]; exists t; split; [intros; lia|].
Lemma ticking_by {E} t0 T u (h : list (Z * op E)) (l : list Z) : (forall a, In a l -> exists nows, In (a, Tick nows) h) ->
  (forall t, t0 <= t -> t + u <= T -> exists a, In a l /\ t < a <= t + u) -> ticking t0 T u h.
Proof. intros H1 H2 t L1 L2. destruct (H2 t L1 L2) as (a & Ha & La). destruct (H1 a Ha) as (nows & Hn). eauto. Qed.

(** At 29 the message stamped 20 has just arrived and waits *)
Example C119_nonvacuous :
  system_stamps LEx.st /\ timed 0 29 LEx.h /\ ticking 0 29 10 LEx.h /\ prompt LEx.st 10 LEx.h /\ rate 4 20 LEx.h /\
  exists s, run LEx.st 4 10 init (calls LEx.h) = Ok (s, [0; 3; 8; 14]) /\ messages s = [20].
Proof.
  split; [intros z; reflexivity|]. split; [|split; [|split; [|split]]].
  - cbn. do 2 (split; [lia|]). tick_ 9. split; [lia|]. tick_ 19. split; [lia|]. tick_ 29. lia.
  - apply (ticking_by _ _ _ _ [9; 19; 29]); [cbn; intros a [<-|[<-|[<-|[]]]]; eexists; intuition reflexivity|]. intros t L1 L2. cbn.
    destruct (Z.lt_ge_cases t 9); [exists 9; lia|]. destruct (Z.lt_ge_cases t 19); [exists 19; lia|]. exists 29. lia.
  - intros a e H. cbn in H. unfold at_ns. intuition (match goal with H : (_, _) = _ |- _ => injection H as <- <- end; cbn; lia).
  - intros t. cbn. destruct (Z.leb_spec t 4), (Z.leb_spec 4 (t + 20)), (Z.leb_spec t 29), (Z.leb_spec 29 (t + 20)); try lia; cbn; repeat (match goal with |- context [if ?b then _ else _] => destruct b end; cbn); lia.
  - eexists. split; vm_compute; reflexivity.
Qed.
(** A queue for the messages of the delay alone is not enough: message 0, which arrived in time, is never passed on *)
Theorem C119_queue_for_the_delay_refuted : exists q d u t0 T (h : list (Z * op Z)) s outs,
  system_stamps LEx.st /\ 0 <= d /\ 0 <= u /\ timed t0 T h /\ ticking t0 T u h /\ prompt LEx.st d h /\ rate q d h /\
  run LEx.st q d init (calls h) = Ok (s, outs) /\ In (0, 0) (arrivals h) /\ ~ In 0 outs /\ ~ In 0 (messages s).
Proof.
  exists 1%nat, 10, 10, 0, 19, LEx.h2. do 2 eexists. split; [intros z; reflexivity|]. split; [lia|]. split; [lia|]. split; [|split; [|split; [|split; [|split; [vm_compute; reflexivity|]]]]].
  - cbn. split; [lia|]. tick_ 9. split; [lia|]. tick_ 19. lia.
  - apply (ticking_by _ _ _ _ [9; 19]); [cbn; intros a [<-|[<-|[]]]; eexists; intuition reflexivity|]. intros t L1 L2. cbn.
    destruct (Z.lt_ge_cases t 9); [exists 9; lia|exists 19; lia].
  - intros a e H. cbn in H. unfold at_ns. intuition (match goal with H : (_, _) = _ |- _ => injection H as <- <- end; cbn; lia).
  - intros t. cbn. destruct (Z.leb_spec t 0), (Z.leb_spec 11 (t + 10)), (Z.leb_spec t 11), (Z.leb_spec 0 (t + 10)); cbn; lia.
  - cbn. intuition lia.
Qed.

Print Assumptions C119_in_time.
Print Assumptions C119_at_most_one_period_late.
Print Assumptions C119_queue_for_the_delay_refuted.
