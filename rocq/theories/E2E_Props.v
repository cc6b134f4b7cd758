(** Property C100: a synchronizer connected in a network synchronizes what the filters it is
    connected to signal.  Composition of the network model with the models of the policies. *)
From Coq Require Import List Arith ZArith Lia Bool.
From Verif Require Import Base RclTime Trace Net_Model Net_Spec Net_Flow Net_Wiring Net_Proofs Net_Props E2E_Spec.
From Verif Require Exact_Model Exact_Spec Exact_Props Eps_Model Eps_Spec Eps_Props
  Approx_Model Approx_Spec Approx_Opt Approx_Proofs Approx_More Approx_Props
  Latest_Model Latest_Spec Latest_Proofs Latest_Props.
Import ListNotations.
Local Open Scope Z_scope.

Section Props.
Context {S M U : Type} (stamp : M -> Z).
Notation op := (op S M U).
Notation obs := (obs M U).

Lemma stream_received n i (tr : list obs) : stream i (received n tr) = inputs n i tr.
Proof.
  unfold stream. induction tr as [|o tr IH]; [reflexivity|].
  destruct o as [u m|n' i' m|n' m]; cbn; auto.
  destruct (Nat.eqb n' n); cbn; auto. destruct (Nat.eqb i' i); cbn; auto. now f_equal.
Qed.

Lemma synchronizes_streams fuel h1 n k fs h2 (tr : list obs) :
  @synchronizes S M U fuel h1 n k fs h2 tr ->
  (forall i f, nth_error fs i = Some f -> stream i (received n tr) = outputs f tr) /\
  (forall i e, In (i, e) (received n tr) -> (i < k)%nat).
Proof.
  intros [Hq (s & rs & Hr & Hc & Etr) H1 H2 H3 H4 H5].
  pose proof (C53_synchronizer_slots fuel h1 n fs h2 s rs k Hr Hc H1 H2 H3 H4) as H. rewrite <- Etr in H.
  split.
  - intros i f Hf. rewrite stream_received, H, Hf. reflexivity.
  - intros i e Hi. apply stream_in in Hi. rewrite stream_received, H in Hi.
    destruct (nth_error fs i) eqn:Ef; [|destruct Hi]. rewrite <- H5. apply nth_error_Some. congruence.
Qed.

(** ExactTime: whatever the order and the queue size, every set consists of messages of equal
    stamp, one signalled by each filter and in its place. *)
Theorem C100_exact_sets_signalled_together fuel h1 n k fs h2 (tr : list obs) q X :
  @synchronizes S M U fuel h1 n k fs h2 tr -> In X (exact_sets stamp k q n tr) ->
  exists t, signalled_together stamp fs tr t X.
Proof.
  intros Hs HX. destruct (synchronizes_streams _ _ _ _ _ _ _ Hs) as (HS & HW). pose proof (sy_all _ _ _ _ _ _ _ Hs) as HL.
  destruct (Exact_Props.C16_exact_sets_match stamp k q (received n tr) X HW HX) as (t & Hl & Hm).
  exists t. split; [lia|]. intros i f e Hf He. destruct (Hm i e He) as (Hin & Ht). split; auto.
  apply stream_in in Hin. now rewrite (HS i f Hf) in Hin.
Qed.

(** With an unbounded queue and filters that signal in the order of the stamps, it outputs all
    such sets, each once, in the order of the stamps. *)
Theorem C100_exact_end_to_end fuel h1 n k fs h2 (tr : list obs) :
  @synchronizes S M U fuel h1 n k fs h2 tr -> (0 < k)%nat ->
  (forall f, In f fs -> strictly_increasing stamp (outputs f tr)) ->
  (forall X, In X (exact_sets stamp k 0 n tr) <-> exists t, signalled_together stamp fs tr t X) /\
  NoDup (exact_sets stamp k 0 n tr) /\
  strictly_increasing (Exact_Spec.set_stamp stamp) (exact_sets stamp k 0 n tr).
Proof.
  intros Hs Hk Ho. destruct (synchronizes_streams _ _ _ _ _ _ _ Hs) as (HS & HW). pose proof (sy_all _ _ _ _ _ _ _ Hs) as HL.
  assert (Exact_Spec.in_order stamp k (received n tr)) as HO.
  { intros i Hi. destruct (nth_error fs i) as [f|] eqn:Ef; [|apply nth_error_None in Ef; lia].
    rewrite (HS i f Ef). apply Ho. now apply nth_error_In in Ef. }
  split; [|split].
  - intros X. split.
    + now apply (C100_exact_sets_signalled_together fuel h1 n k fs h2).
    + intros (t & Hl & Hm). apply Exact_Props.C17_exact_complete; auto. exists t. split; [lia|].
      intros j e He. assert (j < length X)%nat as Hj by (apply nth_error_Some; congruence).
      destruct (nth_error fs j) as [f|] eqn:Ef; [|apply nth_error_None in Ef; lia].
      destruct (Hm j f e Ef He) as (Hin & Ht). split; auto. apply stream_in. now rewrite (HS j f Ef).
  - now apply Exact_Props.C17_exact_once.
  - now apply Exact_Props.C20_exact_output_in_time_order.
Qed.

(** Two networks whose filters signal the same messages: the synchronizers output the same sets,
    however the messages interleave and whatever else the networks contain. *)
Theorem C100_exact_network_independent fuel h1 n fs h2 (tr : list obs) fuel' h1' n' fs' h2' (tr' : list obs) k :
  @synchronizes S M U fuel h1 n k fs h2 tr -> @synchronizes S M U fuel' h1' n' k fs' h2' tr' -> (0 < k)%nat ->
  (forall f, In f fs -> strictly_increasing stamp (outputs f tr)) ->
  (forall i f f', nth_error fs i = Some f -> nth_error fs' i = Some f' -> outputs f tr = outputs f' tr') ->
  exact_sets stamp k 0 n tr = exact_sets stamp k 0 n' tr'.
Proof.
  intros Hs Hs' Hk Ho HE.
  destruct (synchronizes_streams _ _ _ _ _ _ _ Hs) as (HS & HW). destruct (synchronizes_streams _ _ _ _ _ _ _ Hs') as (HS' & HW').
  pose proof (sy_all _ _ _ _ _ _ _ Hs) as HL. pose proof (sy_all _ _ _ _ _ _ _ Hs') as HL'.
  assert (forall i, (i < k)%nat -> exists f f', nth_error fs i = Some f /\ nth_error fs' i = Some f') as HF.
  { intros i Hi. destruct (nth_error fs i) as [f|] eqn:Ef; [|apply nth_error_None in Ef; lia].
    destruct (nth_error fs' i) as [f'|] eqn:Ef'; [|apply nth_error_None in Ef'; lia]. eauto. }
  apply Exact_Props.C21_exact_order_independent; auto.
  - intros i Hi. destruct (HF i Hi) as (f & f' & E1 & E2). rewrite (HS i f E1). apply Ho. now apply nth_error_In in E1.
  - intros i Hi. destruct (HF i Hi) as (f & f' & E1 & E2). rewrite (HS i f E1), (HS' i f' E2). eauto.
Qed.

(** ApproximateEpsilonTime: no addition fails; every set has one message per filter, they differ by
    at most epsilon; what comes from a filter is used in the order in which it was signalled. *)
Theorem C100_eps_end_to_end fuel h1 n k fs h2 (tr : list obs) q eps :
  @synchronizes S M U fuel h1 n k fs h2 tr -> (0 < k)%nat -> 0 <= eps ->
  (forall e, stamp e <= int64_max) ->
  exists outs, eps_sets stamp k q eps n tr = Ok outs /\
    (forall X, In X outs -> length X = length fs /\ forall a b, In a X -> In b X -> stamp a - stamp b <= eps) /\
    (forall i f, nth_error fs i = Some f -> subseq (column i outs) (outputs f tr)).
Proof.
  intros Hs Hk He Hm. destruct (synchronizes_streams _ _ _ _ _ _ _ Hs) as (HS & HW). pose proof (sy_all _ _ _ _ _ _ _ Hs) as HL.
  destruct (Eps_Props.C25_eps_total stamp Hm k q eps (received n tr) Hk He HW) as (s & outs & Hr).
  exists outs. unfold eps_sets. rewrite Hr. split; [reflexivity|]. split.
  - intros X HX. rewrite HL. now apply (Eps_Props.C22_eps_sets_fit stamp Hm k q eps (received n tr) s outs X).
  - intros i f Hf. rewrite <- (HS i f Hf).
    eapply subseq_trans; [|now apply (Eps_Props.C23_eps_subsequence stamp Hm k q eps (received n tr) s outs i)].
    rewrite <- (app_nil_r (column i outs)) at 1. apply subseq_app; [apply subseq_refl|constructor].
Qed.

(** ApproximateTime: no addition fails; what comes from a filter is used in the order in which it
    was signalled; the sets are optimal whatever the filters signal later ([F i] is all filter
    number [i] ever signals). *)
Theorem C100_approx_end_to_end fuel h1 n fs h2 (tr : list obs) c tol num den F :
  @synchronizes S M U fuel h1 n (Approx_Model.n c) fs h2 tr ->
  (0 < Approx_Model.n c)%nat -> (0 < Approx_Model.queue_size c)%nat ->
  Approx_Spec.scaling tol num den (Approx_Model.scale c) ->
  Approx_Spec.respects stamp (Approx_Model.n c) (Approx_Model.bound c) F ->
  (forall i f, nth_error fs i = Some f -> prefix (outputs f tr) (F i)) ->
  exists outs, approx_sets stamp c n tr = Ok outs /\
    Forall (fun X => length X = length fs) outs /\
    (forall i f, nth_error fs i = Some f -> subseq (column i outs) (outputs f tr)) /\
    Approx_Spec.each_set (Approx_Model.n c) (Approx_Spec.optimal_set stamp (Approx_Model.n c) F num den tol) outs.
Proof.
  intros Hs Hn Hq SC HR HF. destruct (synchronizes_streams _ _ _ _ _ _ _ Hs) as (HS & HW). pose proof (sy_all _ _ _ _ _ _ _ Hs) as HL.
  destruct (Approx_Props.C27_approx_never_fails stamp c (received n tr) Hn Hq HW) as (s & outs & Hr).
  exists outs. unfold approx_sets. rewrite Hr. split; [reflexivity|].
  destruct (Approx_Props.C28_approx_subsequence stamp c (received n tr) s outs Hn Hq HW Hr) as (H1 & H2).
  split; [|split].
  - now rewrite HL.
  - intros i f Hf. rewrite <- (HS i f Hf).
    eapply subseq_trans; [|apply H2].
    + rewrite <- (app_nil_r (column i outs)) at 1. apply subseq_app; [apply subseq_refl|constructor].
    + rewrite <- HL. apply nth_error_Some. congruence.
  - apply (Approx_Props.C31_approx_optimal stamp c tol num den F (received n tr) s outs); auto.
    intros i Hi. destruct (nth_error fs i) as [f|] eqn:Ef; [|apply nth_error_None in Ef; lia].
    rewrite (HS i f Ef). eauto.
Qed.

Lemma latest_adds {D} now n (tr : list obs) m :
  Latest_Spec.adds (firstn m (latest_calls (D := D) now n tr)) = firstn m (received n tr).
Proof.
  unfold latest_calls. generalize 0%nat as z. generalize (received n tr) as l. intros l. revert m.
  induction l as [|[i e] l IH]; intros [|m] z; cbn; auto. unfold Latest_Spec.adds in *. cbn. f_equal. apply IH.
Qed.
Lemma latest_calls_in {D} now n (tr : list obs) i e t :
  In (Latest_Model.Add i e t) (latest_calls (D := D) now n tr) -> In (i, e) (received n tr) /\ exists j, t = now j.
Proof.
  unfold latest_calls. intros H. apply in_map_iff in H as ([j [i' e']] & [= <- <- <-] & H). apply in_combine_r in H. eauto.
Qed.
(** LatestTime: if the filters start as C36 requires, no call fails; every set consists of the last message
    of each filter among those that have reached the synchronizer, which are the first ones the filter
    signalled; with readings of one clock source nothing is thrown. *)
Theorem C100_latest_end_to_end {D} (fl : Latest_Model.fops D) (d : Latest_Model.config D) now fuel h1 n k fs h2 (tr : list obs) :
  @synchronizes S M U fuel h1 n k fs h2 tr ->
  Latest_Spec.enough_started k (latest_calls (D := D) now n tr) ->
  exists s outs, Latest_Model.run fl k d (Latest_Model.init k) (latest_calls now n tr) = Ok (s, outs) /\
    length outs = length (received n tr) /\
    (forall j X, nth_error outs j = Some (Latest_Model.Published X) -> length X = length fs /\
       forall i f, nth_error fs i = Some f ->
         let sofar := stream i (firstn (Datatypes.S j) (received n tr)) in
         prefix sofar (outputs f tr) /\ sofar <> [] /\ nth_error X i = hd_error (rev sofar)) /\
    (forall c, (forall j, clk (now j) = c) -> ~ In Latest_Model.Threw outs).
Proof.
  intros Hs HE. destruct (synchronizes_streams _ _ _ _ _ _ _ Hs) as (HS & HW). pose proof (sy_all _ _ _ _ _ _ _ Hs) as HL.
  assert (HI : Latest_Spec.well_indexed k (latest_calls (D := D) now n tr)).
  { intros i e t Hin. apply latest_calls_in in Hin as [Hin _]. eauto. }
  destruct (proj2 (Latest_Props.C36_latest_memory_safe_iff fl k d _ HI) HE) as (s & outs & Hr).
  exists s, outs. split; [exact Hr|].
  pose proof (Latest_Props.C35_latest_one_outcome_per_call fl k d _ _ _ HI Hr) as HLen.
  assert (HC : length (latest_calls (D := D) now n tr) = length (received n tr)).
  { unfold latest_calls. rewrite map_length, combine_length, seq_length. lia. }
  split; [congruence|]. split.
  - intros j X HX. assert (Hj : (j < length (latest_calls (D := D) now n tr))%nat) by (rewrite <- HLen; apply nth_error_Some; congruence).
    destruct (nth_error (latest_calls (D := D) now n tr) j) as [o|] eqn:Ho; [|apply nth_error_None in Ho; lia].
    destruct (Latest_Props.C35_latest_outputs_latest fl k d _ _ _ j o X HI Hr Ho HX) as (H1 & H2 & _).
    split; [congruence|]. intros i f Hf. cbn zeta.
    assert (Hi : (i < k)%nat) by (rewrite <- HL; apply nth_error_Some; congruence).
    destruct (H2 i Hi) as [H3 H4]. unfold Latest_Spec.latest, Latest_Spec.received in *. rewrite latest_adds in *.
    split; [|auto]. rewrite <- (HS i f Hf). exists (stream i (skipn (Datatypes.S j) (received n tr))).
    rewrite <- (firstn_skipn (Datatypes.S j) (received n tr)) at 1. apply stream_app.
  - intros c Hc. apply (Latest_Proofs.one_clock_inv fl k d c (latest_calls (D := D) now n tr) s outs HI); auto.
    intros i e t Hin. apply latest_calls_in in Hin as (_ & j & ->). apply Hc.
Qed.

(** Two networks whose filters signal the same messages, up to when one stops: without overflow the
    sets are the same, up to when one stops. *)
Theorem C100_approx_network_independent fuel h1 n fs h2 (tr : list obs) fuel' h1' n' fs' h2' (tr' : list obs)
    c tol num den F outs outs' :
  @synchronizes S M U fuel h1 n (Approx_Model.n c) fs h2 tr ->
  @synchronizes S M U fuel' h1' n' (Approx_Model.n c) fs' h2' tr' ->
  (0 < Approx_Model.n c)%nat -> (0 < Approx_Model.queue_size c)%nat ->
  Approx_Spec.scaling tol num den (Approx_Model.scale c) ->
  Approx_Spec.respects stamp (Approx_Model.n c) (Approx_Model.bound c) F ->
  (forall i f, nth_error fs i = Some f -> prefix (outputs f tr) (F i)) ->
  (forall i f, nth_error fs' i = Some f -> prefix (outputs f tr') (F i)) ->
  Approx_Opt.no_overflow stamp c (received n tr) -> Approx_Opt.no_overflow stamp c (received n' tr') ->
  approx_sets stamp c n tr = Ok outs -> approx_sets stamp c n' tr' = Ok outs' ->
  prefix outs outs' \/ prefix outs' outs.
Proof.
  intros Hs Hs' Hn Hq SC HR HF HF' N N' R R'.
  destruct (synchronizes_streams _ _ _ _ _ _ _ Hs) as (HS & HW). destruct (synchronizes_streams _ _ _ _ _ _ _ Hs') as (HS' & HW').
  pose proof (sy_all _ _ _ _ _ _ _ Hs) as HL. pose proof (sy_all _ _ _ _ _ _ _ Hs') as HL'.
  unfold approx_sets in R, R'.
  destruct (Approx_Model.run stamp c (Approx_Model.init c) (received n tr)) as [[s1 o1]|] eqn:E1; [|discriminate].
  destruct (Approx_Model.run stamp c (Approx_Model.init c) (received n' tr')) as [[s2 o2]|] eqn:E2; [|discriminate].
  cbn in R, R'. injection R as <-. injection R' as <-.
  apply (Approx_Props.C33_approx_order_independent stamp c c tol num den F (received n tr) (received n' tr') s1 s2); auto.
  intros i Hi. destruct (nth_error fs i) as [f|] eqn:Ef; [|apply nth_error_None in Ef; lia].
  destruct (nth_error fs' i) as [f'|] eqn:Ef'; [|apply nth_error_None in Ef'; lia].
  rewrite (HS i f Ef), (HS' i f' Ef'). eauto.
Qed.
End Props.

(** Non-vacuity: a source behind a PassThrough and a source, into a synchronizer; a Cache on the
    side, destroyed in the middle.  The messages are those of [Approx_Props.exh]. *)
Definition Op := Net_Model.op unit Z nat.
Definition net1 : list Op :=
  [New Source tt; New PassThrough tt; ConnectInput 1 [0%nat]; New Source tt; New (Synchronizer 2) tt; New Cache tt].
Definition net2 : list Op :=
  [ConnectInput 4 [0%nat]; Emit 0 0; Emit 2 1; Emit 0 2; Destroy 4; Emit 0 3; Emit 2 5; Emit 0 6; Emit 2 7].
Definition net_trace : list (Net_Model.obs Z nat) :=
  match run 9 [] (net1 ++ ConnectInput 3 [1%nat; 2%nat] :: net2) with
  | Ok (_, rs) => trace (skipn (S (length net1)) rs) | Err _ => [] end.
(** the same messages in another order, with the roles of the sources taken by a PassThrough fed by hand *)
Definition net1' : list Op :=
  [New (Synchronizer 2) tt; New PassThrough tt; New PassThrough tt].
Definition net2' : list Op :=
  [Add 2 0 1; Add 2 0 5; Add 1 0 0; Add 1 0 2; Add 1 0 3; Add 1 0 6; Add 2 0 7].
Definition net_trace' : list (Net_Model.obs Z nat) :=
  match run 9 [] (net1' ++ ConnectInput 0 [1%nat; 2%nat] :: net2') with
  | Ok (_, rs) => trace (skipn (S (length net1')) rs) | Err _ => [] end.

Local Ltac all_ops := intros o Ho; cbn in Ho; repeat destruct Ho as [<-|Ho]; try reflexivity; destruct Ho.
Example net_synchronizes : synchronizes 9 net1 3 2 [1%nat; 2%nat] net2 net_trace.
Proof.
  split; try all_ops; [|reflexivity].
  destruct (run 9 [] (net1 ++ ConnectInput 3 [1%nat; 2%nat] :: net2)) as [[s rs]|] eqn:E; [|vm_compute in E; discriminate].
  exists s, rs. split; [exact E|]. unfold net_trace. rewrite E. split; [|reflexivity].
  vm_compute in E. injection E as <- <-. exists tt, 4%nat, []. auto.
Qed.
Example net_synchronizes' : synchronizes 9 net1' 0 2 [1%nat; 2%nat] net2' net_trace'.
Proof.
  split; try all_ops; [|reflexivity].
  destruct (run 9 [] (net1' ++ ConnectInput 0 [1%nat; 2%nat] :: net2')) as [[s rs]|] eqn:E; [|vm_compute in E; discriminate].
  exists s, rs. split; [exact E|]. unfold net_trace'. rewrite E. split; [|reflexivity].
  vm_compute in E. injection E as <- <-. exists tt, 0%nat, []. auto.
Qed.
Example net_outputs :
  received 3 net_trace = Approx_Props.exh /\ outputs 1 net_trace = [0; 2; 3; 6] /\ outputs 2 net_trace = [1; 5; 7] /\
  outputs 1 net_trace' = [0; 2; 3; 6] /\ outputs 2 net_trace' = [1; 5; 7].
Proof. repeat split; vm_compute; reflexivity. Qed.
Example net_sets :
  approx_sets (fun z => z) (Approx_Props.cfg2 10 1) 3 net_trace = Ok [[0; 1]; [6; 5]] /\
  approx_sets (fun z => z) (Approx_Props.cfg2 10 1) 0 net_trace' = Ok [[0; 1]; [6; 5]] /\
  exact_sets (fun z => (z + 1) / 2) 2 0 3 net_trace = [[2; 1]; [6; 5]] /\
  exact_sets (fun z => (z + 1) / 2) 2 0 0 net_trace' = [[2; 1]; [6; 5]] /\
  eps_sets (fun z => Z.min z int64_max) 2 10 1 3 net_trace = Ok [[0; 1]; [6; 5]].
Proof. repeat split; vm_compute; reflexivity. Qed.
(** LatestTime, messages 20 ms apart *)
Example net_latest :
  let now j := mkTime (Z.of_nat j * 20000000) RosClock in
  Latest_Spec.enough_started 2 (latest_calls (D := QArith_base.Q) now 3 net_trace) /\
  match Latest_Model.run Latest_Props.Ex.qops 2 Latest_Props.Ex.dflt (Latest_Model.init 2) (latest_calls now 3 net_trace) with
  | Ok (_, outs) => flat_map (fun x => match x with Latest_Model.Published X => [X] | _ => [] end) outs | Err _ => [] end
  = [[2; 1]; [3; 1]; [6; 5]].
Proof.
  cbn zeta. split; [|vm_compute; reflexivity].
  eapply (Latest_Props.C36_latest_memory_safe_iff Latest_Props.Ex.qops 2 Latest_Props.Ex.dflt).
  - intros i e t Hin. apply latest_calls_in in Hin as [Hin _]. vm_compute in Hin.
    repeat (destruct Hin as [[= <- <-]|Hin]; [lia|]). destruct Hin.
  - eexists _, _. vm_compute. reflexivity.
Qed.
(** the streams are in the order of those stamps *)
Example net_in_order : forall f, In f [1%nat; 2%nat] -> strictly_increasing (fun z => (z + 1) / 2) (outputs f net_trace).
Proof.
  intros f [<-|[<-|[]]]; vm_compute; repeat constructor; intros; repeat match goal with H : In _ _ |- _ => destruct H as [<-|H] || destruct H end; reflexivity.
Qed.
(** the hypotheses of the theorems on ApproximateTime: [F] is [Approx_Props.exF], which goes on *)
Example net_prefixes : forall i f, nth_error [1%nat; 2%nat] i = Some f ->
  prefix (outputs f net_trace) (Approx_Props.exF i) /\ prefix (outputs f net_trace') (Approx_Props.exF i).
Proof.
  intros [|[|[|i]]] f H; cbn in H; try discriminate; injection H as <-; split; eexists; vm_compute; reflexivity.
Qed.

Print Assumptions C100_exact_sets_signalled_together.
Print Assumptions C100_exact_end_to_end.
Print Assumptions C100_exact_network_independent.
Print Assumptions C100_eps_end_to_end.
Print Assumptions C100_approx_end_to_end.
Print Assumptions C100_approx_network_independent.
Print Assumptions C100_latest_end_to_end.
