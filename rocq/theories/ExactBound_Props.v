(** Property C105: ExactTime with a bounded queue outputs everything an unbounded one would, as
    long as the inputs do not run too far apart; and that bound is exact. *)
From Coq Require Import List Arith ZArith Lia Bool Sorted.
From Verif Require Import Base Trace Exact_Model Exact_Spec Exact_Proofs Exact_Props ExactBound_Spec ExactBound_Proofs.
From Verif Require Net_Model Net_Spec E2E_Spec E2E_Props.
Import ListNotations.
Local Open Scope Z_scope.

Section Props.
Context {E : Type} (stamp : E -> Z).

(** The message that completes a set causes its output, whatever happened to other sets, if fewer
    than [q] later stamps were received before. *)
Theorem C105_exact_set_survives n q h1 i e ss :
  well_indexed n (h1 ++ [(i, e)]) -> in_order stamp n (h1 ++ [(i, e)]) ->
  matching_set stamp n (h1 ++ [(i, e)]) (stamp e) ss -> fewer_later stamp q h1 (stamp e) ->
  signals (snd (add stamp n q (fst (run stamp n q init h1)) (i, e))) = [ss].
Proof. apply completing_output. Qed.

(** So, if that holds of every set, exactly the matching sets are output ... *)
Theorem C105_exact_bounded_complete n q h ss :
  (0 < n)%nat -> well_indexed n h -> in_order stamp n h -> queue_suffices stamp n q h ->
  (In ss (signals (snd (run stamp n q init h))) <-> exists t, matching_set stamp n h t ss).
Proof. apply signals_iff_bounded. Qed.

(** ... the output is the one of the unbounded queue ... *)
Theorem C105_exact_bounded_is_unbounded n q h :
  (0 < n)%nat -> well_indexed n h -> in_order stamp n h -> queue_suffices stamp n q h ->
  signals (snd (run stamp n q init h)) = signals (snd (run stamp n 0 init h)).
Proof.
  intros Hn HW HO HQ. apply (sorted_same_members stamp); try (now apply signals_increasing).
  intros ss. rewrite signals_iff_bounded, signals_iff by auto. tauto.
Qed.

(** ... and does not depend on how the inputs interleave, nor on the queue size. *)
Theorem C105_exact_bounded_order_independent n q q' h h' :
  (0 < n)%nat -> well_indexed n h -> well_indexed n h' -> in_order stamp n h ->
  queue_suffices stamp n q h -> queue_suffices stamp n q' h' ->
  (forall i, (i < n)%nat -> stream i h = stream i h') ->
  signals (snd (run stamp n q init h)) = signals (snd (run stamp n q' init h')).
Proof.
  intros Hn HW HW' HO HQ HQ' HS.
  assert (HO' : in_order stamp n h') by (intros i Hi; rewrite <- HS; auto).
  rewrite (C105_exact_bounded_is_unbounded n q h), (C105_exact_bounded_is_unbounded n q' h') by auto.
  now apply C21_exact_order_independent.
Qed.

Lemma same_stamps_in_order n S h :
  strictly_increasing (fun z => z) S -> same_stamps stamp n S h -> in_order stamp n h.
Proof.
  intros HS HP i Hi. destruct (HP i Hi) as (c & ->). apply StronglySorted_app in HS as (HS & _ & _).
  unfold strictly_increasing in *. clear HP. induction (stream i h) as [|x s IH]; constructor; inversion HS as [|? ? H1 H2]; subst; auto.
  rewrite Forall_map in H2. exact H2.
Qed.

Lemma nth_error_firstn_lt {A} (l : list A) k m : (m < k)%nat -> nth_error (firstn k l) m = nth_error l m.
Proof. revert k m. induction l as [|x l IH]; intros [|k] [|m] H; cbn; try lia; auto. apply IH. lia. Qed.
Lemma nth_error_skipn_add {A} (l : list A) a k : nth_error (skipn a l) k = nth_error l (a + k).
Proof. revert l. induction a as [|a IH]; intros [|x l]; cbn; auto. now destruct k. Qed.

Lemma increasing_nth S p m x y :
  strictly_increasing (fun z => z) S -> nth_error S p = Some x -> nth_error S m = Some y -> x < y -> (p < m)%nat.
Proof.
  intros HS. revert p m. induction HS as [|z S HS IH HF]; intros [|p] [|m] Hp Hm Hxy; cbn in *; try discriminate; try lia.
  - injection Hm as ->. injection Hp as ->. lia.
  - injection Hm as ->. rewrite Forall_forall in HF. apply nth_error_In in Hp. apply HF in Hp. lia.
  - specialize (IH _ _ Hp Hm Hxy). lia.
Qed.

(** A condition a user can check: all inputs deliver the same stamps, and no input is ever more
    than [q] messages ahead of another. *)
Theorem C105_lag_suffices n q S h :
  (0 < q)%nat -> well_indexed n h -> strictly_increasing (fun z => z) S -> same_stamps stamp n S h ->
  ahead_at_most n q h -> queue_suffices stamp n q h.
Proof.
  intros Hq HW HS HP HA h1 i e h2 ss Eh _ ts HN Hts.
  assert (Hi : (i < n)%nat) by (apply (HW i e); rewrite Eh; apply in_or_app; cbn; auto).
  set (p := length (stream i h1)).
  assert (Hp : nth_error S p = Some (stamp e)).
  { destruct (HP i Hi) as (c & ->). rewrite Eh, stream_app, stream_cons, Nat.eqb_refl, map_app, <- app_assoc.
    rewrite nth_error_app2; rewrite map_length; fold p; [|lia]. now rewrite Nat.sub_diag. }
  assert (incl ts (firstn (q - 1) (skipn (Datatypes.S p) S))) as HI.
  { intros x Hx. destruct (Hts x Hx) as (Hlt & j & e' & Hin & Hst).
    assert (Hj : (j < n)%nat) by (apply (HW j e'); rewrite Eh; apply in_or_app; auto).
    apply stream_in in Hin. apply In_nth_error in Hin as (m & Hm).
    assert (nth_error S m = Some x) as HSm.
    { destruct (HP j Hj) as (c & ->). rewrite Eh, stream_app, map_app, <- app_assoc, nth_error_app1, nth_error_map, Hm.
      - cbn. now rewrite Hst. - rewrite map_length. apply nth_error_Some. congruence. }
    pose proof (increasing_nth S p m _ _ HS Hp HSm Hlt) as Hpm.
    assert (m < length (stream j h1))%nat by (apply nth_error_Some; congruence).
    pose proof (HA h1 ((i, e) :: h2) j i Eh Hj Hi) as Hahead. fold p in Hahead.
    apply (nth_error_In _ (m - Datatypes.S p)).
    rewrite nth_error_firstn_lt by lia. rewrite nth_error_skipn_add. now replace (Datatypes.S p + (m - Datatypes.S p))%nat with m by lia. }
  apply NoDup_incl_length in HI; auto. rewrite firstn_length in HI. lia.
Qed.

(** Then every stamp that all inputs have delivered has been output, once and in order. *)
Theorem C105_lag_outputs_everything n q S h :
  (0 < n)%nat -> (0 < q)%nat -> well_indexed n h -> strictly_increasing (fun z => z) S -> same_stamps stamp n S h ->
  ahead_at_most n q h ->
  strictly_increasing (set_stamp stamp) (signals (snd (run stamp n q init h))) /\
  forall t, (exists ss, In ss (signals (snd (run stamp n q init h))) /\ set_stamp stamp ss = t) <->
            (forall i, (i < n)%nat -> In t (map stamp (stream i h))).
Proof.
  intros Hn Hq HW HS HP HA. pose proof (same_stamps_in_order n S h HS HP) as HO.
  pose proof (C105_lag_suffices n q S h Hq HW HS HP HA) as HQ.
  split; [now apply C20_exact_output_in_time_order|]. intros t. split.
  - intros (ss & Hin & <-) i Hi. apply signals_iff_bounded in Hin as (t & HM); auto.
    rewrite (matching_set_stamp stamp n h t ss Hn HM).
    destruct (matching_set_slot stamp n h t ss i Hi HM) as (x & _ & Hx & <-). apply in_map. now apply stream_in.
  - intros Hall.
    assert (exists ss, matching_set stamp n h t ss) as (ss & HM).
    { clear -Hall. induction n as [|m IH]; [exists []; split; auto; intros [|j] e; discriminate|].
      destruct IH as (ss & HL & HM); [intros; apply Hall; lia|]. destruct (proj1 (in_map_iff _ _ _) (Hall m ltac:(lia))) as (e & He & Hin).
      exists (ss ++ [e]). split; [rewrite app_length; cbn; lia|]. intros j x Hx.
      destruct (Nat.lt_ge_cases j m) as [Hj|Hj].
      - rewrite nth_error_app1 in Hx by lia. auto.
      - rewrite nth_error_app2 in Hx by lia. rewrite HL in Hx.
        destruct (j - m)%nat as [|k] eqn:Ek; [|destruct k; discriminate]. cbn in Hx. injection Hx as <-.
        replace j with m by lia. split; auto. now apply stream_in. }
    exists ss. split; [apply signals_iff_bounded; eauto|]. now apply (matching_set_stamp stamp n h).
Qed.
End Props.

(** In a network: a synchronizer whose queue suffices for what it receives outputs exactly the
    sets of messages of equal stamp signalled by the filters it is connected to. *)
Theorem C105_exact_bounded_end_to_end {S M U : Type} (stamp : M -> Z) fuel h1 n k fs h2 (tr : list (Net_Model.obs M U)) q :
  @E2E_Spec.synchronizes S M U fuel h1 n k fs h2 tr -> (0 < k)%nat ->
  (forall f, In f fs -> strictly_increasing stamp (Net_Spec.outputs f tr)) ->
  queue_suffices stamp k q (Net_Spec.received n tr) ->
  forall X, In X (E2E_Spec.exact_sets stamp k q n tr) <-> exists t, E2E_Spec.signalled_together stamp fs tr t X.
Proof.
  intros Hs Hk Ho HQ X. rewrite <- (proj1 (E2E_Props.C100_exact_end_to_end stamp _ _ _ _ _ _ _ Hs Hk Ho)).
  destruct (E2E_Props.synchronizes_streams _ _ _ _ _ _ _ Hs) as (HS & HW). pose proof (E2E_Spec.sy_all _ _ _ _ _ _ _ Hs) as HL.
  assert (in_order stamp k (Net_Spec.received n tr)) as HO.
  { intros i Hi. destruct (nth_error fs i) as [f|] eqn:Ef; [|apply nth_error_None in Ef; lia].
    rewrite (HS i f Ef). apply Ho. now apply nth_error_In in Ef. }
  unfold E2E_Spec.exact_sets. now rewrite C105_exact_bounded_is_unbounded.
Qed.

(** The bound is exact: for every queue size there is a history in which one input is [q + 1]
    messages ahead and the set that the other input completes then is lost. *)
Definition ahead_history (q : nat) : list (nat * Z) :=
  map (fun k => (0%nat, Z.of_nat k)) (seq 0 (S q)) ++ [(1%nat, 0)].

Lemma ahead_well_indexed q : well_indexed 2 (ahead_history q).
Proof.
  intros i e Hi. apply in_app_or in Hi as [Hi|[[= <- <-]|[]]]; [|lia].
  apply in_map_iff in Hi as (k & [= <- <-] & _). lia.
Qed.

Lemma ahead_pending q m : (0 < q)%nat -> (m <= q)%nat ->
  tuples (fst (run (fun z => z) 2 q init (map (fun k => (0%nat, Z.of_nat k)) (seq 0 m)))) =
  map (fun k => (Z.of_nat k, [Some (Z.of_nat k); None])) (seq 0 m) /\
  signals (snd (run (fun z => z) 2 q init (map (fun k => (0%nat, Z.of_nat k)) (seq 0 m)))) = [].
Proof.
  intros Hq. induction m as [|m IH]; intros Hm; [split; reflexivity|].
  destruct (IH ltac:(lia)) as [IH1 IH2]. rewrite seq_S, !map_app. cbn [map Nat.add]. rewrite run_snoc. cbn [fst snd].
  set (h := map (fun k => (0%nat, Z.of_nat k)) (seq 0 m)) in *.
  assert (HW : well_indexed 2 h).
  { intros i e Hi. apply in_map_iff in Hi as (k & [= <- <-] & _). lia. }
  pose proof (add_desc (fun z => z) 2 q h _ 0%nat (Z.of_nat m) ltac:(lia) (run_inv (fun z => z) 2 q h HW)) as HD.
  remember (add (fun z => z) 2 q (fst (run (fun z => z) 2 q init h)) (0%nat, Z.of_nat m)) as r eqn:Er. clear Er.
  inversion HD as [a b t0 s' os Ha Hb Hmm Hcase Hs' Hos]. clear HD. rewrite IH1 in Hmm.
  assert (Hk : forall x, In x (map (fun k => (Z.of_nat k, [Some (Z.of_nat k); None])) (seq 0 m)) -> fst x < Z.of_nat m).
  { intros x Hx. apply in_map_iff in Hx as (k & <- & Hk). apply in_seq in Hk. cbn. lia. }
  destruct Hmm as [[Hmm ->]|Hmm].
  2:{ specialize (Hk (Z.of_nat m, t0)). rewrite Hmm in Hk. specialize (Hk ltac:(apply in_or_app; cbn; auto)). cbn in Hk. lia. }
  destruct b as [|y b].
  2:{ specialize (Hk y). rewrite Hmm in Hk. specialize (Hk ltac:(apply in_or_app; cbn; auto)). specialize (Hb y ltac:(cbn; auto)). lia. }
  rewrite app_nil_r in Hmm. subst a. cbn in Hcase. rewrite app_length, map_length, seq_length in Hcase. cbn in Hcase.
  destruct Hcase as [(ss & Hf & _)|[(_ & _ & Hs & Ho)|(_ & _ & Hl & _)]]; [discriminate| |lia].
  rewrite Hs, Ho, signals_app, IH2. split; reflexivity.
Qed.

Theorem C105_queue_bound_is_exact q :
  (0 < q)%nat ->
  matching_set (fun z => z) 2 (ahead_history q) 0 [0; 0] /\
  signals (snd (run (fun z => z) 2 q init (ahead_history q))) = [] /\
  signals (snd (run (fun z => z) 2 (S q) init (ahead_history q))) = [[0; 0]].
Proof.
  intros Hq.
  assert (HM : matching_set (fun z => z) 2 (ahead_history q) 0 [0; 0]).
  { split; auto. intros [|[|[|j]]] e He; cbn in He; try discriminate; injection He as <-; split; auto.
    - cbn. auto. - apply in_or_app; cbn; auto. }
  assert (HO : in_order (fun z => z) 2 (ahead_history q)).
  { intros i Hi. unfold ahead_history. rewrite stream_app. destruct i as [|[|i]]; [| |lia].
    - cbn [stream filter map fst snd Nat.eqb app]. rewrite app_nil_r.
      assert (stream 0 (map (fun k => (0%nat, Z.of_nat k)) (seq 0 (S q))) = map Z.of_nat (seq 0 (S q))) as ->.
      { induction (seq 0 (S q)) as [|k l IH]; auto. cbn [map]. now rewrite stream_cons, Nat.eqb_refl, IH. }
      unfold strictly_increasing. generalize 0%nat at 1. induction (S q) as [|k IH]; intros a; cbn; constructor; auto.
      rewrite Forall_forall. intros x Hx. apply in_map_iff in Hx as (y & <- & Hy). apply in_seq in Hy. lia.
    - assert (stream 1 (map (fun k => (0%nat, Z.of_nat k)) (seq 0 (S q))) = []) as ->.
      { induction (seq 0 (S q)) as [|k l IH]; auto. }
      cbn. repeat constructor. }
  split; [exact HM|]. split.
  - unfold ahead_history. destruct (ahead_pending q q Hq (le_n q)) as [IH1 IH2].
    rewrite run_snoc. cbn [snd]. rewrite signals_app.
    rewrite seq_S, map_app. cbn [map Nat.add]. rewrite run_snoc. cbn [fst snd]. rewrite signals_app, IH2.
    set (h := map (fun k => (0%nat, Z.of_nat k)) (seq 0 q)) in *.
    assert (HW : well_indexed 2 (h ++ [(0%nat, Z.of_nat q)])).
    { intros i e Hi. apply in_app_or in Hi as [Hi|[[= <- <-]|[]]]; [|lia]. apply in_map_iff in Hi as (k & [= <- <-] & _). lia. }
    pose proof HW as HW0. apply well_indexed_app in HW0 as [HW0 _].
    pose proof (run_inv (fun z => z) 2 q h HW0) as HI.
    pose proof (add_desc (fun z => z) 2 q h _ 0%nat (Z.of_nat q) ltac:(lia) HI) as HD.
    pose proof (add_inv (fun z => z) 2 q h _ 0%nat (Z.of_nat q) ltac:(lia) HI) as HI'.
    set (s := add (fun z => z) 2 q (fst (run (fun z => z) 2 q init h)) (0%nat, Z.of_nat q)) in *.
    assert (Hs : tuples (fst s) = map (fun k => (Z.of_nat k, [Some (Z.of_nat k); None])) (seq 1 q) /\ signals (snd s) = []).
    { clearbody s. inversion HD as [a b t0 s' os Ha Hb Hmm Hcase Hs' Hos]. clear HD. rewrite IH1 in Hmm.
      assert (Hk : forall x, In x (map (fun k => (Z.of_nat k, [Some (Z.of_nat k); None])) (seq 0 q)) -> fst x < Z.of_nat q).
      { intros x Hx. apply in_map_iff in Hx as (k & <- & Hk). apply in_seq in Hk. cbn. lia. }
      destruct Hmm as [[Hmm ->]|Hmm].
      2:{ specialize (Hk (Z.of_nat q, t0)). rewrite Hmm in Hk. specialize (Hk ltac:(apply in_or_app; cbn; auto)). cbn in Hk. lia. }
      destruct b as [|y b].
      2:{ specialize (Hk y). rewrite Hmm in Hk. specialize (Hk ltac:(apply in_or_app; cbn; auto)). specialize (Hb y ltac:(cbn; auto)). lia. }
      rewrite app_nil_r in Hmm. subst a. cbn in Hcase. rewrite app_length, map_length, seq_length in Hcase. cbn in Hcase.
      destruct Hcase as [(ss & Hf & _)|[(_ & Hl & _)|(_ & _ & Hl & Hs & Ho)]]; [discriminate|lia|].
      rewrite Hs, Ho. split.
      - cbn [tuples]. change [(Z.of_nat q, [Some (Z.of_nat q); None])] with (map (fun k => (Z.of_nat k, [Some (Z.of_nat k); (@None Z)])) [q]).
        rewrite <- map_app. change [q] with [(0 + q)%nat]. rewrite <- seq_S. reflexivity.
      - apply signals_drops. }
    destruct Hs as [Hs1 Hs2]. rewrite Hs2. cbn [app]. clear HD.
    pose proof (add_desc (fun z => z) 2 q _ (fst s) 1%nat 0 ltac:(lia) HI') as HD.
    remember (add (fun z => z) 2 q (fst s) (1%nat, 0)) as r eqn:Er. clear Er.
    inversion HD as [a b t0 s' os Ha Hb Hmm Hcase Hs' Hos]. clear HD. rewrite Hs1 in Hmm.
    destruct Hmm as [[Hmm ->]|Hmm].
    2:{ assert (In (0, t0) (map (fun k => (Z.of_nat k, [Some (Z.of_nat k); None])) (seq 1 q))) as Hx.
        { rewrite Hmm. apply in_or_app; cbn; auto. }
        apply in_map_iff in Hx as (k & [= Hx _] & Hk). apply in_seq in Hk. lia. }
    cbn in Hcase.
    destruct Hcase as [(ss & Hf & _)|[(_ & _ & _ & Ho)|(_ & _ & _ & _ & Ho)]]; [discriminate| |]; rewrite Ho; auto.
    apply signals_drops.
  - assert (HW := ahead_well_indexed q). unfold ahead_history in HW, HO, HM |- *. rewrite run_snoc. cbn [snd]. rewrite signals_app.
    rewrite (proj2 (ahead_pending (S q) (S q) ltac:(lia) (le_n _))). cbn [app].
    apply (C105_exact_set_survives (fun z => z)); auto.
    intros ts HN Hts. assert (incl ts (map Z.of_nat (seq 1 q))) as HI.
    { intros x Hx. destruct (Hts x Hx) as (Hlt & i & e & Hin & Hst). apply in_map_iff in Hin as (k & [= <- <-] & Hk).
      subst x. apply in_seq in Hk. apply in_map. apply in_seq. lia. }
    apply NoDup_incl_length in HI; auto. rewrite map_length, seq_length in HI. lia.
Qed.

(** Non-vacuity: three inputs, queue of two, one input two messages ahead; all is output. *)
Definition lag_h : list (nat * Z) :=
  [(0%nat, 1); (0%nat, 4); (1%nat, 1); (2%nat, 1); (1%nat, 4); (0%nat, 6); (2%nat, 4); (0%nat, 9); (1%nat, 6); (2%nat, 6)].
Example C105_nonvacuous :
  well_indexed 3 lag_h /\ same_stamps (fun z => z) 3 [1; 4; 6; 9; 12] lag_h /\ ahead_at_most 3 2 lag_h /\
  signals (snd (run (fun z => z) 3 2 init lag_h)) = [[1; 1; 1]; [4; 4; 4]; [6; 6; 6]] /\
  signals (snd (run (fun z => z) 3 1 init lag_h)) <> [[1; 1; 1]; [4; 4; 4]; [6; 6; 6]].
Proof.
  assert (HW : well_indexed 3 lag_h).
  { intros i e H. cbn in H. repeat destruct H as [[= <- <-]|H]; lia. }
  split; [exact HW|]. split; [|split; [|split; [reflexivity|vm_compute; discriminate]]].
  - intros [|[|[|i]]] Hi; try lia; eexists; cbn; reflexivity.
  - intros h1 h2 i j Eh Hi Hj. unfold lag_h in Eh.
    assert (exists k, h1 = firstn k lag_h /\ (k <= 10)%nat) as (k & -> & Hk).
    { exists (length h1). split.
      - unfold lag_h. rewrite Eh, firstn_app, Nat.sub_diag, firstn_all. cbn. now rewrite app_nil_r.
      - apply (f_equal (@length _)) in Eh. rewrite app_length in Eh. cbn in Eh. lia. }
    clear Eh. destruct i as [|[|[|i]]]; try lia; destruct j as [|[|[|j]]]; try lia;
      do 11 (destruct k as [|k]; [cbn; lia|]); lia.
Qed.
Print Assumptions C105_exact_set_survives.
Print Assumptions C105_exact_bounded_complete.
Print Assumptions C105_exact_bounded_is_unbounded.
Print Assumptions C105_exact_bounded_order_independent.
Print Assumptions C105_lag_suffices.
Print Assumptions C105_lag_outputs_everything.
Print Assumptions C105_queue_bound_is_exact.
Print Assumptions C105_exact_bounded_end_to_end.
