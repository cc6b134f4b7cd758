(** Properties C98, C99: with moderate parameters no time arithmetic overflows, so that the filters
    with the throwing 64-bit operations of rclcpp behave exactly like the models with
    unbounded integers, for which the other properties are proved; with huge parameters they
    throw. *)
From Coq Require Import List Arith ZArith Lia Bool.
From Verif Require Import Base RclTime ApproxScale_Model ApproxScale_Props Time64_Model Time64_Spec
  Time64_Proofs.
From Verif Require Eps_Model Eps_Spec Eps_Props Approx_Model Approx_Spec Approx_Props
  Aligner_Model Aligner_Spec Aligner_Props Seq_Model.
Import ListNotations.
Local Open Scope Z_scope.

Section Props.
Context {E : Type}.

(** C98: ApproximateEpsilonTime with an epsilon of at most 73 years *)
Theorem C98_eps_no_overflow (stamp : E -> Z) n q eps h :
  header_stamps stamp -> moderate eps ->
  Eps64.run stamp n q eps (Eps_Model.init n) h = Eps_Model.run stamp n q eps (Eps_Model.init n) h.
Proof. intros H He. apply eps_run_ok; auto. now apply header_stamps_range. Qed.

(** C98: so with a non-negative epsilon it never throws. *)
Theorem C98_eps_never_throws (stamp : E -> Z) n q eps h :
  header_stamps stamp -> 0 <= eps <= 2 ^ 61 -> (0 < n)%nat -> Eps_Spec.well_indexed n h ->
  exists s outs, Eps64.run stamp n q eps (Eps_Model.init n) h = Ok (s, outs).
Proof.
  intros H He Hn HW. rewrite C98_eps_no_overflow; auto; [|unfold moderate; lia].
  apply Eps_Props.C25_eps_total; auto; [|lia].
  intros e. pose proof (header_stamps_range stamp H e). unfold int64_max, tmax in *. lia.
Qed.

(** C98: ApproximateTime; [num]/[den] is 1 + age penalty.  The stamps lie in a window whose
    length, plus the largest inter message lower bound, times (1 + age penalty) fits into 64
    bits. *)
Theorem C98_approx_no_overflow (stamp : E -> Z) c p num den w B h :
  header_stamps stamp -> in_window stamp w ->
  (forall i, 0 <= Approx_Model.bound c i <= B) -> B <= 2 ^ 61 ->
  64 <= p -> 0 < den -> 0 <= num -> (w + B) * num <= int64_max * den ->
  (forall d, Approx_Model.scale c d = scale_long_double p num den d) -> (0 < Approx_Model.n c)%nat ->
  Approx64.run stamp c (times64 p num den) (Approx_Model.init c) h =
  Approx_Model.run stamp c (Approx_Model.init c) h.
Proof.
  intros H (lo & HW) HB HBm Hp Hd Hnum Hfit Hs Hn.
  apply (approx_run_ok stamp c (times64 p num den) lo w B); auto.
  - now apply header_stamps_range.
  - intros d Hd'. rewrite Hs. apply times64_ok; auto. pose proof (HB 0%nat). nia.
  - now apply approx_init_R.
Qed.

(** C98: so it never throws. *)
Theorem C98_approx_never_throws (stamp : E -> Z) c p num den w B h :
  header_stamps stamp -> in_window stamp w ->
  (forall i, 0 <= Approx_Model.bound c i <= B) -> B <= 2 ^ 61 ->
  64 <= p -> 0 < den -> 0 <= num -> (w + B) * num <= int64_max * den ->
  (forall d, Approx_Model.scale c d = scale_long_double p num den d) ->
  (0 < Approx_Model.n c)%nat -> (0 < Approx_Model.queue_size c)%nat ->
  Approx_Spec.well_indexed (Approx_Model.n c) h ->
  exists s outs, Approx64.run stamp c (times64 p num den) (Approx_Model.init c) h = Ok (s, outs).
Proof.
  intros H HW HB HBm Hp Hd Hnum Hfit Hs Hn Hq HI.
  rewrite (C98_approx_no_overflow stamp c p num den w B); auto.
  now apply Approx_Props.C27_approx_never_fails.
Qed.

(** C98: InputAligner with periods of at most 73 years *)
Theorem C98_aligner_no_overflow (stamp : E -> Z) n timeout h :
  header_stamps stamp -> moderate_periods h ->
  Aligner64.run stamp timeout (Aligner_Model.init n) h =
  Aligner_Model.run stamp timeout (Aligner_Model.init n) h.
Proof.
  intros H HP. apply aligner_run_ok; auto using aligner_init_ok. now apply header_stamps_range.
Qed.

(** C98: so with a non-negative timeout it never throws. *)
Theorem C98_aligner_never_throws (stamp : E -> Z) n timeout h :
  header_stamps stamp -> moderate_periods h -> (0 < n)%nat -> 0 <= timeout ->
  Aligner_Spec.well_indexed n h ->
  exists s outs, Aligner64.run stamp timeout (Aligner_Model.init n) h = Ok (s, outs).
Proof.
  intros H HP Hn Ht HW. rewrite C98_aligner_no_overflow by auto.
  apply Aligner_Props.C47_aligner_total; auto.
  intros e. pose proof (header_stamps_range stamp H e). unfold int64_max, tmax in *. lia.
Qed.

(** C98: TimeSequencer with a delay of at most 73 years: any exception is one of the model
    with unbounded integers (comparing stamps of different clocks, C43). *)
Theorem C98_seq_no_overflow (stamp : E -> time) q delay h :
  (forall e, 0 <= ns (stamp e) < 2 ^ 61 + 2 ^ 33) -> moderate delay ->
  Seq64.run stamp q delay (Seq_Model.init) h = Seq_Model.run stamp q delay (Seq_Model.init) h.
Proof. intros H HD. apply seq_run_ok; auto. Qed.

(** C98: header stamps meet that hypothesis. *)
Theorem C98_header_times_in_range (stamp : E -> time) :
  header_times stamp -> forall e, 0 <= ns (stamp e) < 2 ^ 61 + 2 ^ 33.
Proof.
  intros H e. destruct (H e) as (m & Hm & Ht). now apply (header_time_range m (stamp e) Hm Ht).
Qed.

(* ------------------------------------------------------------------ *)
Lemma unlimited_within (stamp : E -> Z) eps old is vs :
  int64_max < fst old + eps -> Eps64.all_within_from stamp eps old is vs = Ok true ->
  forall k, (k < length vs)%nat -> snd old = Some (is + k)%nat.
Proof.
  intros Hold. revert is; induction vs as [|v vs IH]; intros is; cbn; [lia|].
  unfold Eps64.within.
  destruct (match snd old with Some j => Nat.eqb is j | None => false end) eqn:Ej.
  - cbn. destruct (Eps64.all_within_from stamp eps old (S is) vs) as [b|] eqn:Ea; cbn; [|discriminate].
    intros H; injection H as ->. intros [|k] Hk.
    + destruct (snd old) as [j|]; [|discriminate]. apply Nat.eqb_eq in Ej as ->. now rewrite Nat.add_0_r.
    + rewrite Nat.add_succ_r. apply (IH (S is)); auto. lia.
  - destruct v as [|e v]; cbn.
    + destruct (Eps64.all_within_from stamp eps old (S is) vs); cbn; [|discriminate]. intros H; discriminate.
    + unfold plus64, is_int64. rewrite (proj2 (Z.leb_gt (fst old + eps) int64_max)) by auto.
      rewrite andb_false_r. discriminate.
Qed.

Lemma unlimited_process (stamp : E -> Z) n eps fuel s s' o outs :
  (forall e, int64_max < stamp e + eps) -> 0 < eps -> (2 <= n)%nat -> length (Eps_Model.events s) = n ->
  Eps64.process stamp n eps fuel s outs = Ok (s', o) ->
  o = outs /\ length (Eps_Model.events s') = n.
Proof.
  intros Hbig Heps Hn. revert s; induction fuel as [|fuel IH]; intros s HL; cbn.
  - destruct (Nat.eqb (Eps_Model.count s) n); [discriminate|]. intros H; injection H as <- <-. auto.
  - destruct (Nat.eqb (Eps_Model.count s) n); [|intros H; injection H as <- <-; auto].
    set (old := Eps_Model.get_older_timestamp stamp s).
    assert (int64_max < fst old + eps) as Hold.
    { unfold old, Eps_Model.get_older_timestamp.
      assert (forall vs is cur, int64_max < fst cur + eps ->
                int64_max < fst (Eps_Model.older_from stamp is vs cur) + eps) as HG.
      { clear -Hbig. induction vs as [|v vs IH]; intros is cur H; cbn [Eps_Model.older_from]; auto. apply IH.
        unfold Eps_Model.older_between. destruct v as [|e v]; auto.
        destruct (stamp e <? fst cur); auto. apply Hbig. }
      apply HG. cbn [fst]. lia. }
    destruct (Eps64.all_within_from stamp eps old 0 (Eps_Model.events s)) as [b|] eqn:Ea; cbn; [|discriminate].
    destruct b.
    { pose proof (unlimited_within stamp eps old 0 _ Hold Ea 0 ltac:(lia)) as H0.
      pose proof (unlimited_within stamp eps old 0 _ Hold Ea 1 ltac:(lia)) as H1.
      rewrite H0 in H1. discriminate. }
    unfold Eps64.erase_on_sync.
    destruct (Eps64.erase_from stamp eps (fst old) (Eps_Model.events s)) as [[vs d]|] eqn:Ee; cbn; [|discriminate].
    apply IH. cbn.
    assert (forall vs vs' d, Eps64.erase_from stamp eps (fst old) vs = Ok (vs', d) -> length vs' = length vs) as HLen.
    { clear. induction vs as [|v vs IH]; intros vs' d; cbn; [intros H; injection H as <- _; auto|].
      destruct (Eps64.erase_if_on_sync stamp eps (fst old) v) as [[v' d']|]; cbn; [|discriminate].
      destruct (Eps64.erase_from stamp eps (fst old) vs) as [[vs'' d'']|]; cbn; [|discriminate].
      intros H; injection H as <- _. cbn. f_equal. eapply IH; reflexivity. }
    rewrite (HLen _ _ _ Ee). auto.
Qed.

(** C99: ApproximateEpsilonTime with an epsilon so large that no stamp plus epsilon is a 64-bit
    integer (the largest duration, and stamps after 1970), and two or more inputs, never
    outputs anything: it throws instead. *)
Theorem C99_eps_huge_never_outputs (stamp : E -> Z) n q eps h s outs :
  (forall e, int64_max < stamp e + eps) -> 0 < eps -> (2 <= n)%nat ->
  Eps64.run stamp n q eps (Eps_Model.init n) h = Ok (s, outs) -> outs = [].
Proof.
  intros Hbig Heps Hn.
  assert (length (Eps_Model.events (@Eps_Model.init E n)) = n) as HL by apply repeat_length.
  revert HL. generalize (@Eps_Model.init E n) as s0. revert s outs.
  induction h as [|[i e] h IH]; intros s outs s0 HL; cbn [Eps64.run].
  { intros H; injection H as _ <-. auto. }
  destruct (Eps64.add stamp n q eps s0 (i, e)) as [[s1 o1]|] eqn:Ea; cbn; [|discriminate].
  assert (o1 = [] /\ length (Eps_Model.events s1) = n) as (-> & HL1).
  { revert Ea. unfold Eps64.add. destruct (nth_error (Eps_Model.events s0) i) as [v|]; [|discriminate].
    destruct (Nat.eqb _ n).
    - apply unlimited_process; auto. cbn. now rewrite upd_length.
    - destruct (Nat.ltb _ _).
      + destruct (Eps_Model.erase_beginning (v ++ [e])) as [v2 d]. intros H; injection H as <- <-.
        split; auto. cbn. now rewrite !upd_length.
      + intros H; injection H as <- <-. split; auto. cbn. now rewrite upd_length. }
  destruct (Eps64.run stamp n q eps s1 h) as [[s2 o2]|] eqn:Er; cbn; [|discriminate].
  intros H; injection H as _ <-. eapply IH; eauto.
Qed.
End Props.

(* ------------------------------------------------------------------ *)
(** Non-vacuity: the message [z] is stamped with [z] seconds, up to a day *)
Definition day_stamp (z : Z) : Z := z mod 86400 * 1000000000.
Lemma day_stamp_header : header_stamps day_stamp.
Proof.
  intros z. pose proof (Z.mod_pos_bound z 86400 ltac:(lia)) as H.
  exists (mkMsgTime (z mod 86400) 0), (mkTime (z mod 86400 * 1000000000 + 0) RosClock).
  split; [split; cbn [sec nanosec]; lia|]. split.
  - unfold time_of_header. cbn [sec nanosec]. destruct (Z.ltb_spec (z mod 86400) 0); [lia|reflexivity].
  - cbn [ns]. unfold day_stamp. lia.
Qed.
Lemma day_stamp_window : in_window day_stamp (86400 * 1000000000).
Proof.
  exists 0. intros z. unfold day_stamp. pose proof (Z.mod_pos_bound z 86400 ltac:(lia)). lia.
Qed.
Definition day_cfg : Approx_Model.cfg :=
  Approx_Model.mkCfg 2 10 int64_max (scale_long_double 64 num11 den11) (fun _ => 1000000000).
Ltac well_idx := let i := fresh in let e := fresh in let H := fresh in
  intros i e H; cbn in *; repeat (destruct H as [H|H]; [inversion H; lia|]); destruct H.
Notation day_history := [(0%nat, 1); (1%nat, 9); (0%nat, 10); (1%nat, 28); (0%nat, 30)].
Example approx_meets_hypotheses :
  (86400 * 1000000000 + 1000000000) * num11 <= int64_max * den11 /\ 0 < den11 /\ 0 <= num11 /\
  (forall i, 0 <= Approx_Model.bound day_cfg i <= 1000000000) /\ 1000000000 <= 2 ^ 61 /\
  (0 < Approx_Model.n day_cfg)%nat /\ (0 < Approx_Model.queue_size day_cfg)%nat /\
  Approx_Spec.well_indexed (Approx_Model.n day_cfg) day_history.
Proof.
  split; [vm_compute; congruence|]. split; [reflexivity|]. split; [vm_compute; congruence|].
  split; [intros i; cbn; lia|]. split; [lia|]. split; [cbn; lia|]. split; [cbn; lia|].
  well_idx.
Qed.
Example approx_run64 :
  match Approx64.run day_stamp day_cfg (times64 64 num11 den11) (Approx_Model.init day_cfg) day_history with
  | Ok (_, outs) => outs = [[10; 9]]
  | Err _ => False
  end.
Proof. vm_compute. reflexivity. Qed.
Example eps_run64 :
  match Eps64.run day_stamp 2 10 2000000000 (Eps_Model.init 2) day_history with
  | Ok (_, outs) => outs = [[10; 9]; [30; 28]]
  | Err _ => False
  end.
Proof. vm_compute. reflexivity. Qed.
Notation aligner_history p :=
  [Aligner_Model.SetPeriod 0 p; Aligner_Model.Add 0 3; Aligner_Model.Add 1 2; Aligner_Model.Dispatch].
Example aligner_meets_hypotheses :
  moderate_periods (aligner_history 5000000000) /\ Aligner_Spec.well_indexed 2 (aligner_history 5000000000).
Proof.
  split.
  - intros i p H. cbn in H. destruct H as [H|[H|[H|[H|[]]]]]; try discriminate.
    injection H as _ <-. unfold moderate. lia.
  - split; well_idx.
Qed.
Example aligner_run64 :
  match Aligner64.run day_stamp 1000000000 (Aligner_Model.init 2) (aligner_history 5000000000) with
  | Ok (_, outs) => outs = [(1%nat, 2); (0%nat, 3)]
  | Err _ => False
  end.
Proof. vm_compute. reflexivity. Qed.
Definition day_time (z : Z) : time := mkTime (day_stamp z) SystemClock.
Example seq_meets_hypotheses : forall z, 0 <= ns (day_time z) < 2 ^ 61 + 2 ^ 33.
Proof. intros z. apply (header_stamps_range day_stamp day_stamp_header z). Qed.
Notation seq_history := [Seq_Model.Add 3; Seq_Model.Add 2; Seq_Model.Tick (fun _ => 3500000000)].
Example seq_run64 :
  match Seq64.run day_time 10 1000000000 Seq_Model.init seq_history with
  | Ok (_, outs) => outs = [2]
  | Err _ => False
  end.
Proof. vm_compute. reflexivity. Qed.
Example huge_meets_hypotheses :
  (forall z, int64_max < (day_stamp z + 1) + int64_max) /\ 0 < int64_max /\
  match Eps64.run (fun z => day_stamp z + 1) 2 10 int64_max (Eps_Model.init 2) [(0%nat, 1); (0%nat, 2)] with
  | Ok (_, outs) => outs = []
  | Err _ => False
  end.
Proof.
  split; [|split; [reflexivity|vm_compute; reflexivity]].
  intros z. pose proof (header_stamps_range day_stamp day_stamp_header z). lia.
Qed.

(* ------------------------------------------------------------------ *)
(** C99: without the bounds on the parameters the property is false of the code.  The largest
    duration as epsilon: two messages with the same stamp make the policy throw. *)
Theorem C99_eps_any_epsilon_refuted :
  header_stamps day_stamp /\ 0 <= int64_max /\ Eps_Spec.well_indexed 2 [(0%nat, 1); (1%nat, 1)] /\
  Eps64.run day_stamp 2 10 int64_max (Eps_Model.init 2) [(0%nat, 1); (1%nat, 1)] = Err Thrown.
Proof.
  split; [apply day_stamp_header|]. split; [unfold int64_max; lia|].
  split; [well_idx|vm_compute; reflexivity].
Qed.

(** The largest duration as period of one input: the next dispatch throws. *)
Theorem C99_aligner_any_period_refuted :
  header_stamps day_stamp /\ Aligner_Spec.well_indexed 2 (aligner_history int64_max) /\
  Aligner64.run day_stamp 0 (Aligner_Model.init 2) (aligner_history int64_max) = Err Thrown.
Proof.
  split; [apply day_stamp_header|]. split; [split; well_idx|vm_compute; reflexivity].
Qed.

(** The largest duration as delay: the first tick of the timer throws. *)
Theorem C99_seq_any_delay_refuted :
  (forall z, 0 <= ns (day_time z) < 2 ^ 61 + 2 ^ 33) /\
  Seq64.run day_time 10 int64_max Seq_Model.init seq_history = Err Thrown.
Proof. split; [apply seq_meets_hypotheses|vm_compute; reflexivity]. Qed.

(** The largest duration as inter message lower bound: the search for a better candidate throws. *)
Definition bound_cfg : Approx_Model.cfg :=
  Approx_Model.mkCfg 2 10 int64_max (scale_long_double 64 num11 den11) (fun _ => int64_max).
Theorem C99_approx_any_bound_refuted :
  header_stamps day_stamp /\ Approx_Spec.well_indexed 2 [(0%nat, 1); (1%nat, 2)] /\
  Approx64.run day_stamp bound_cfg (times64 64 num11 den11) (Approx_Model.init bound_cfg)
    [(0%nat, 1); (1%nat, 2)] = Err Thrown.
Proof.
  split; [apply day_stamp_header|]. split; [well_idx|vm_compute; reflexivity].
Qed.

(** An age penalty of a million, to forbid any delay of a set, and messages three hours apart: the
    product throws. *)
Definition penalty_cfg : Approx_Model.cfg :=
  Approx_Model.mkCfg 2 10 int64_max (scale_long_double 64 1000001 1) (fun _ => 0).
Theorem C99_approx_any_penalty_refuted :
  header_stamps day_stamp /\ Approx_Spec.well_indexed 2 [(0%nat, 1); (1%nat, 2); (0%nat, 10802)] /\
  Approx64.run day_stamp penalty_cfg (times64 64 1000001 1) (Approx_Model.init penalty_cfg)
    [(0%nat, 1); (1%nat, 2); (0%nat, 10802)] = Err Thrown.
Proof.
  split; [apply day_stamp_header|]. split; [well_idx|vm_compute; reflexivity].
Qed.

Print Assumptions C98_eps_no_overflow.
Print Assumptions C98_eps_never_throws.
Print Assumptions C98_approx_no_overflow.
Print Assumptions C98_approx_never_throws.
Print Assumptions C98_aligner_no_overflow.
Print Assumptions C98_aligner_never_throws.
Print Assumptions C98_seq_no_overflow.
Print Assumptions C98_header_times_in_range.
Print Assumptions C99_eps_huge_never_outputs.
Print Assumptions C99_eps_any_epsilon_refuted.
Print Assumptions C99_aligner_any_period_refuted.
Print Assumptions C99_seq_any_delay_refuted.
Print Assumptions C99_approx_any_bound_refuted.
Print Assumptions C99_approx_any_penalty_refuted.
