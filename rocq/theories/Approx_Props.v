(** Properties C27-C34 and C60-C62: ApproximateTime.  [run stamp c (init c) h] is the
    policy configured by [c] after the additions [h]; its result carries the sets output
    so far.  [stream i h] are the messages added on input [i]. *)
From Coq Require Import List Arith ZArith Lia Bool Permutation Sorted.
From Verif Require Import Base RclTime Trace Approx_Model Approx_Spec Approx_Proofs Approx_Opt Approx_More.
Import ListNotations.
Local Open Scope Z_scope.

Section Props.
Context {E : Type} (stamp : E -> Z).
Notation run := (run stamp).

(** C27: whatever the stamps, bounds, maximum interval and even the age-penalty
    arithmetic, every history runs to completion: no assertion fails, no empty queue is
    accessed, no loop runs forever. *)
Theorem C27_approx_never_fails c (h : list (nat * E)) :
  (0 < n c)%nat -> (0 < queue_size c)%nat -> well_indexed (n c) h ->
  exists s outs, run c (init c) h = Ok (s, outs).
Proof.
  intros Hn Hq HI. destruct (run_Inv stamp c h Hn Hq HI) as (s & outs & Hr & _). eauto.
Qed.

(** C28: every set has one message per input; per input, what was output, followed by
    what is still held, is a subsequence of what was received. *)
Theorem C28_approx_subsequence c h s outs :
  (0 < n c)%nat -> (0 < queue_size c)%nat -> well_indexed (n c) h ->
  run c (init c) h = Ok (s, outs) ->
  Forall (fun X => length X = n c) outs /\
  forall i, (i < n c)%nat -> subseq (column i outs ++ nth i (pending s) []) (stream i h).
Proof.
  intros Hn Hq HI Hr. destruct (run_accounting stamp c h s outs Hn Hq HI Hr) as (HF & HA).
  split; auto. intros i Hi. rewrite (nth_pending c).
  - apply (HA i Hi).
  - apply (inv_wf _ _ _ (run_at_rest stamp c h s outs Hn Hq HI Hr)).
Qed.

(** C28: per input, what is held is the most recent part of what was received (only
    older messages are ever dropped), and what was output comes from the part before. *)
Theorem C28_approx_keeps_most_recent c h s outs i :
  (0 < n c)%nat -> (0 < queue_size c)%nat -> well_indexed (n c) h ->
  run c (init c) h = Ok (s, outs) -> (i < n c)%nat ->
  exists gone, stream i h = gone ++ nth i (pending s) [] /\ subseq (column i outs) gone.
Proof.
  intros Hn Hq HI Hr Hi. destruct (run_cut stamp c h s outs Hn Hq HI Hr i Hi) as (d & Hd & Hs).
  exists d. rewrite (nth_pending c); [auto|].
  apply (inv_wf _ _ _ (run_at_rest stamp c h s outs Hn Hq HI Hr)).
Qed.

(** C29: at most queue_size messages are held per input. *)
Theorem C29_approx_bounded c h s outs i :
  (0 < n c)%nat -> (0 < queue_size c)%nat -> well_indexed (n c) h ->
  run c (init c) h = Ok (s, outs) -> (i < n c)%nat ->
  (length (nth i (pending s) []) <= queue_size c)%nat.
Proof.
  intros Hn Hq HI Hr Hi. destruct (run_accounting stamp c h s outs Hn Hq HI Hr) as (HF & HA).
  rewrite (nth_pending c); [apply (HA i Hi)|].
  apply (inv_wf _ _ _ (run_at_rest stamp c h s outs Hn Hq HI Hr)).
Qed.

(** C30: no set spans more than the maximum interval, for any stamps in any order. *)
Theorem C30_approx_max_interval c tol num den h s outs X :
  (0 < n c)%nat -> (0 < queue_size c)%nat -> well_indexed (n c) h ->
  scaling tol num den (scale c) ->
  run c (init c) h = Ok (s, outs) -> In X outs -> span stamp X <= max_interval c.
Proof.
  intros Hn Hq HI SC Hr HX.
  destruct (run_SInv stamp c tol num den SC h s outs Hn Hq HI Hr) as (_ & HF).
  rewrite Forall_forall in HF. auto.
Qed.

Lemma each_impl c (P Q : (nat -> nat) -> (nat -> nat) -> list E -> Prop) outs :
  (forall b x X, P b x X -> Q b x X) -> each_set (n c) P outs -> each_set (n c) Q outs.
Proof. intros H (b & Hb). exists b. eapply sets_from_impl; eauto. Qed.

(** C31: every set is optimal among the sets made of messages following the previous
    set and straddling its pivot message (in particular those containing it), whatever
    arrives later: [F i] are all messages input [i] ever receives.  Holds also when
    queues overflow.  [tol] is what the rounding of a duration may be worth; it does not
    add up however often the candidate is replaced. *)
Theorem C31_approx_optimal c tol num den F h s outs :
  (0 < n c)%nat -> (0 < queue_size c)%nat -> well_indexed (n c) h ->
  scaling tol num den (scale c) -> respects stamp (n c) (bound c) F ->
  (forall i, (i < n c)%nat -> prefix (stream i h) (F i)) ->
  run c (init c) h = Ok (s, outs) ->
  each_set (n c) (optimal_set stamp (n c) F num den tol) outs.
Proof.
  intros Hn Hq HI SC HF HC Hr.
  destruct (run_G stamp c tol num den SC F HF Hn False Hq h HI s outs Hr) as (_ & HG).
  destruct HG as (base & Hch & _); [exact HC|tauto|].
  exists base. eapply sets_from_impl; [|exact Hch]. intros b x X (H & _). exact H.
Qed.

(** As long as no queue overflows, each set is the one set that has to come next. *)
Theorem C32_approx_next_set c tol num den F h s outs :
  (0 < n c)%nat -> (0 < queue_size c)%nat -> well_indexed (n c) h ->
  scaling tol num den (scale c) -> respects stamp (n c) (bound c) F ->
  (forall i, (i < n c)%nat -> prefix (stream i h) (F i)) -> no_overflow stamp c h ->
  run c (init c) h = Ok (s, outs) ->
  each_set (n c) (next_set stamp (n c) F num den (max_interval c) tol) outs.
Proof.
  intros Hn Hq HI SC HF HC Hno Hr.
  destruct (run_G stamp c tol num den SC F HF Hn True Hq h HI s outs Hr) as (_ & HG).
  destruct HG as (base & Hch & _); [exact HC|auto|].
  exists base. eapply sets_from_impl; [|exact Hch]. intros b x X (_ & H). now apply H.
Qed.

(** Nor is there another set that could come next, if nothing is rounded up. *)
Theorem C32_approx_next_set_unique n F num den mx base x x' (X X' : list E) :
  next_set stamp n F num den mx 0 base x X -> next_set stamp n F num den mx 0 base x' X' -> X = X'.
Proof. intros H1 H2. exact (proj1 (next_set_det stamp n F num den mx _ _ _ _ _ H1 H2)). Qed.

(** Rounded or not, each set is the one the search through the streams ends with. *)
Theorem C32_approx_found_set c tol num den F h s outs :
  (0 < n c)%nat -> (0 < queue_size c)%nat -> well_indexed (n c) h ->
  scaling tol num den (scale c) -> respects stamp (n c) (bound c) F ->
  (forall i, (i < n c)%nat -> prefix (stream i h) (F i)) -> no_overflow stamp c h ->
  run c (init c) h = Ok (s, outs) ->
  each_set (n c) (found_set stamp (n c) F (max_interval c) (scale c)) outs.
Proof.
  intros Hn Hq HI SC HF HC Hno Hr.
  destruct (run_G stamp c tol num den SC F HF Hn True Hq h HI s outs Hr) as (_ & HG).
  destruct HG as (base & Hch & _); [exact HC|auto|].
  exists base. eapply sets_from_impl; [|exact Hch]. intros b x X (_ & H). now apply H.
Qed.

(** This set is unique, for any arithmetic. *)
Theorem C32_approx_found_set_unique n F mx sc base x x' (X X' : list E) :
  found_set stamp n F mx sc base x X -> found_set stamp n F mx sc base x' X' -> X = X'.
Proof. intros H1 H2. exact (proj1 (found_set_det stamp n F mx sc _ _ _ _ _ H1 H2)). Qed.

(** C32: on the pivot input the only messages skipped are those that belong to no set
    within the maximum interval. *)
Theorem C32_approx_contiguous c tol num den F h s outs :
  (0 < n c)%nat -> (0 < queue_size c)%nat -> well_indexed (n c) h ->
  scaling tol num den (scale c) -> respects stamp (n c) (bound c) F ->
  (forall i, (i < n c)%nat -> prefix (stream i h) (F i)) -> no_overflow stamp c h ->
  run c (init c) h = Ok (s, outs) ->
  each_set (n c) (fun base x X =>
    selects (n c) F x X /\ from (n c) base x /\
    exists p, (p < n c)%nat /\
      forall k y Y, (base p <= k < x p)%nat -> selects (n c) F y Y -> from (n c) base y -> y p = k ->
        max_interval c < span stamp Y) outs.
Proof.
  intros Hn Hq HI SC HF HC Hno Hr.
  eapply (each_impl c); [|eapply C32_approx_next_set; eauto].
  intros b x X (A1 & A2 & f & Fst & [B1 B2 B3 B4] & A3 & A4 & (p & m & P1 & P2 & P3 & P4) & A5).
  split; auto. split; auto. exists p. split; auto.
  intros k y Y Hk HY Hby Hy. destruct (Z.lt_ge_cases (max_interval c) (span stamp Y)); auto.
  exfalso. specialize (B4 y Y HY Hby H p P1). lia.
Qed.

(** C32 for an effectively unlimited maximum interval: between two consecutive sets the
    input whose first unused message is the latest one skips nothing. *)
Theorem C32_approx_contiguous_unlimited c tol num den F h s outs :
  (0 < n c)%nat -> (0 < queue_size c)%nat -> well_indexed (n c) h ->
  scaling tol num den (scale c) -> respects stamp (n c) (bound c) F ->
  (forall i, (i < n c)%nat -> prefix (stream i h) (F i)) -> no_overflow stamp c h ->
  (forall i j a b, (i < n c)%nat -> (j < n c)%nat -> In a (F i) -> In b (F j) ->
     stamp a - stamp b <= max_interval c) ->
  run c (init c) h = Ok (s, outs) ->
  each_set (n c) (fun base x X =>
    selects (n c) F x X /\ from (n c) base x /\
    exists p m, (p < n c)%nat /\ x p = base p /\ nth_error X p = Some m /\
      forall i e, (i < n c)%nat -> nth_error (F i) (base i) = Some e -> stamp e <= stamp m) outs.
Proof.
  intros Hn Hq HI SC HF HC Hno Hmax Hr.
  eapply (each_impl c); [|eapply C32_approx_next_set; eauto].
  intros b x X (A1 & A2 & f & Fst & HA & A3 & A4 & (p & m & P1 & P2 & P3 & P4) & A5).
  destruct HA as [B1 B2 B3 B4].
  destruct (selects_exists c F b) as (B & HB).
  { intros i Hi. destruct (selects_at c F Hn x X i A1 Hi) as (e & E1 & _).
    assert (x i < length (F i))%nat by (apply nth_error_Some; congruence).
    specialize (A2 i Hi). apply nth_error_Some. lia. }
  assert (span stamp B <= max_interval c) as HsB.
  { unfold span. destruct (finish_in stamp B (selects_ne c F Hn _ _ HB)) as (e1 & I1 & <-).
    destruct (start_in stamp B (selects_ne c F Hn _ _ HB)) as (e2 & I2 & <-).
    destruct (selects_in c F _ _ _ HB I1) as (i & Hi & N1).
    destruct (selects_in c F _ _ _ HB I2) as (j & Hj & N2).
    apply (Hmax i j); auto; eapply nth_error_In; eauto. }
  pose proof (B4 b B HB (from_refl c Hn b) HsB) as Hfb.
  assert (forall i, (i < n c)%nat -> f i = b i) as Heq by (apply from_antisym; auto).
  assert (Fst = B) as -> by (eapply (selects_det (n c) F f b); eauto).
  split; auto. split; auto. exists p, m. split; auto. split; [rewrite P2; auto|]. split; auto.
  intros i e Hi He. rewrite P4. apply finish_ge.
  destruct (selects_at c F Hn b B i HB Hi) as (e' & E1 & _ & E3).
  replace e with e' by congruence. exact E3.
Qed.

(** C33: two policies fed with (prefixes of) the same streams in any two interleavings,
    and even with different queue sizes and different valid lower bounds: one output is
    a prefix of the other. *)
Theorem C33_approx_order_independent c1 c2 tol num den F h1 h2 s1 s2 outs1 outs2 :
  (0 < n c1)%nat -> n c2 = n c1 -> (0 < queue_size c1)%nat -> (0 < queue_size c2)%nat ->
  max_interval c1 = max_interval c2 ->
  scaling tol num den (scale c1) -> (forall d, scale c2 d = scale c1 d) ->
  respects stamp (n c1) (bound c1) F -> respects stamp (n c1) (bound c2) F ->
  well_indexed (n c1) h1 -> well_indexed (n c1) h2 ->
  (forall i, (i < n c1)%nat -> prefix (stream i h1) (F i) /\ prefix (stream i h2) (F i)) ->
  no_overflow stamp c1 h1 -> no_overflow stamp c2 h2 ->
  run c1 (init c1) h1 = Ok (s1, outs1) -> run c2 (init c2) h2 = Ok (s2, outs2) ->
  prefix outs1 outs2 \/ prefix outs2 outs1.
Proof.
  intros Hn Hnn Hq1 Hq2 Hm SC1 SC2 HF1 HF2 HI1 HI2 HC N1 N2 R1 R2.
  assert (scaling tol num den (scale c2)) as SC2'.
  { destruct SC1 as [A1 A2 A3 A4 A5 A6]. split; auto; intros; rewrite !SC2; auto. }
  destruct (C32_approx_found_set c1 tol num den F h1 s1 outs1) as (b1 & Hb1); auto.
  { intros i Hi. apply (HC i Hi). }
  destruct (C32_approx_found_set c2 tol num den F h2 s2 outs2) as (b2 & Hb2); auto;
    try (rewrite Hnn; auto).
  { intros i Hi. apply (HC i Hi). }
  rewrite Hnn, <- Hm in Hb2.
  eapply (sets_from_prefix stamp (n c1) F (max_interval c1) (scale c1)); eauto.
  eapply sets_from_impl; [|exact Hb2].
  intros b x X. now apply found_set_scale.
Qed.

(** Without overflow in an observable form: no input has received more than
    [queue_size] messages beyond the number of sets output before. *)
Theorem C33_approx_no_overflow_if_small_backlog c (h : list (nat * E)) :
  (0 < n c)%nat -> (0 < queue_size c)%nat -> well_indexed (n c) h ->
  (forall h1 i e h2 s o, h = h1 ++ (i, e) :: h2 -> run c (init c) h1 = Ok (s, o) ->
     (length (stream i (h1 ++ [(i, e)])) <= queue_size c + length o)%nat) ->
  no_overflow stamp c h.
Proof.
  intros Hn Hq HI HB. apply small_no_overflow; auto. intros h1 i e h2 Eh s o. now apply HB with h2.
Qed.

(** C34: a perfect match is output by the addition that completes it, whatever the
    stamps before, if no search is in progress and nothing was just dropped. *)
Theorem C34_approx_perfect_match_now c h s outs i e s' o X t :
  (0 < n c)%nat -> (0 < queue_size c)%nat -> well_indexed (n c) h ->
  run c (init c) h = Ok (s, outs) ->
  pivot s = None -> (forall j, nth j (dropped s) false = false) ->
  0 <= max_interval c -> 0 <= scale c 0 -> (i < n c)%nat -> length X = n c ->
  (forall j, (j < n c)%nat ->
     nth_error X j = hd_error (nth j (pending s) [] ++ (if Nat.eq_dec i j then [e] else []))) ->
  (forall x, In x X -> stamp x = t) ->
  add stamp c s (i, e) = Ok (s', o) -> exists o', o = X :: o'.
Proof.
  intros Hn Hq HI Hr Hp Hd Hm Hs Hi HL HX Ht Ha.
  pose proof (run_at_rest stamp c h s outs Hn Hq HI Hr) as HInv.
  eapply (perfect_match_now stamp c s i e s' o X t); eauto.
  intros j Hj. rewrite HX by auto. rewrite (nth_pending c) by (apply (inv_wf _ _ _ HInv)). reflexivity.
Qed.

(** C34 for whole histories of ordered streams without overflow: at no time are the
    next messages of all inputs (after the sets already output) a perfect match. *)
Theorem C34_approx_no_perfect_match_left c tol num den h s outs :
  (0 < n c)%nat -> (0 < queue_size c)%nat -> well_indexed (n c) h ->
  scaling tol num den (scale c) -> respects stamp (n c) (bound c) (fun i => stream i h) ->
  no_overflow stamp c h -> 0 <= max_interval c ->
  run c (init c) h = Ok (s, outs) ->
  exists base,
    sets_from (n c) (fun b x X =>
        next_set stamp (n c) (fun i => stream i h) num den (max_interval c) tol b x X /\
        found_set stamp (n c) (fun i => stream i h) (max_interval c) (scale c) b x X)
      (fun _ => 0%nat) outs base /\
    ~ exists t, forall i, (i < n c)%nat ->
        exists e, nth_error (stream i h) (base i) = Some e /\ stamp e = t.
Proof. intros. eapply no_perfect_match_left; eauto. Qed.

(** C60 (progress): with ordered streams and no overflow, once every input has received
    a message later than the earliest set within the maximum interval, that set no
    longer waits: the set that has to come next has been output. *)
Theorem C60_approx_progress c tol num den h s outs :
  (0 < n c)%nat -> (0 < queue_size c)%nat -> well_indexed (n c) h ->
  scaling tol num den (scale c) -> respects stamp (n c) (bound c) (fun i => stream i h) ->
  no_overflow stamp c h ->
  run c (init c) h = Ok (s, outs) ->
  exists base,
    sets_from (n c) (fun b x X =>
        next_set stamp (n c) (fun i => stream i h) num den (max_interval c) tol b x X /\
        found_set stamp (n c) (fun i => stream i h) (max_interval c) (scale c) b x X)
      (fun _ => 0%nat) outs base /\
    forall f Fst, first_admissible stamp (n c) (fun i => stream i h) (max_interval c) base f Fst ->
      exists i, (i < n c)%nat /\ forall e, In e (stream i h) -> stamp e <= finish stamp Fst.
Proof. intros. eapply progress; eauto. Qed.

(** C61: a policy copied while no search is in progress - in particular before use -
    behaves like the original from then on. *)
Theorem C61_approx_copy_idle c h s outs h2 :
  (0 < n c)%nat -> (0 < queue_size c)%nat -> well_indexed (n c) h ->
  run c (init c) h = Ok (s, outs) -> pivot s = None ->
  run c (copy s) h2 = run c s h2.
Proof. intros Hn Hq HI Hr Hp. now rewrite (copy_idle stamp c h s outs Hn Hq HI Hr Hp). Qed.

(** C62: the policy warns about an input only if two consecutive messages of it really
    violate the configured lower bound or are out of order. *)
Theorem C62_approx_warning_sound c h s outs i :
  (0 < n c)%nat -> (0 < queue_size c)%nat -> well_indexed (n c) h ->
  run c (init c) h = Ok (s, outs) -> (i < n c)%nat -> nth i (warned s) false = true ->
  exists k e e', nth_error (stream i h) k = Some e /\ nth_error (stream i h) (S k) = Some e' /\
    (stamp e' < stamp e \/ stamp e' - stamp e < bound c i).
Proof.
  intros Hn Hq HI Hr Hi Hw. exact (proj2 (run_warned stamp c h s outs Hn Hq HI Hr i Hi) Hw).
Qed.
End Props.

(* ------------------------------------------------------------------ *)
(** The scaling used in the examples meets the assumption. *)
Lemma scale_by_scaling num den : 0 < den -> den <= num -> scaling 0 num den (scale_by num den).
Proof.
  intros Hd Hn. split; auto; try lia; unfold scale_by.
  - intros d Hdd. rewrite Z.quot_div_nonneg by nia.
    pose proof (Z.mul_succ_div_gt (d * num) den ltac:(lia)).
    pose proof (Z.mul_div_le (d * num) den ltac:(lia)). lia.
  - intros d d' H. rewrite !Z.quot_div_nonneg by nia. apply Z.div_le_mono; nia.
  - intros d Hdd. pose proof (Z.quot_rem' (d * num) den) as H1.
    pose proof (Z.rem_bound_pos_neg (d * num) den ltac:(lia) ltac:(nia)) as H2.
    split; [|nia]. destruct (Z.le_gt_cases (Z.quot (d * num) den) 0); auto. exfalso. nia.
Qed.

(** The tests of test/test_approximate_time_policy.cpp replayed on the model
    (stamps in seconds; 1 + age_penalty = 11/10; unlimited interval). *)
Definition cfg2 (q : nat) (b0 : Z) : cfg :=
  mkCfg 2 q (2 ^ 60) (scale_by 11 10) (fun i => match i with O => b0 | _ => 0 end).
Definition cfg4 (q : nat) : cfg := mkCfg 4 q (2 ^ 60) (scale_by 11 10) (fun _ => 0).
Definition outputs {S E} (r : res (S * list (list E))) : option (list (list E)) :=
  match r with Ok (_, o) => Some o | Err _ => None end.
Definition sim c (h : list (nat * Z)) := outputs (run (fun z => z) c (init c) h).
Definition A (z : Z) : nat * Z := (0%nat, z).
Definition B (z : Z) : nat * Z := (1%nat, z).
Definition C (z : Z) : nat * Z := (2%nat, z).
Definition D (z : Z) : nat * Z := (3%nat, z).

Example test_exact_match :
  sim (cfg2 10 0) [A 0; B 0; A 3; B 3; A 6; B 6] = Some [[0; 0]; [3; 3]; [6; 6]].
Proof. vm_compute. reflexivity. Qed.
Example test_perfect_match :
  sim (cfg2 10 0) [A 0; B 1; A 3; B 4; A 6; B 7] = Some [[0; 1]; [3; 4]].
Proof. vm_compute. reflexivity. Qed.
Example test_imperfect_match :
  sim (cfg2 10 0) [A 0; B 1; A 2; A 3; B 5; A 6; B 7] = Some [[0; 1]; [6; 5]].
Proof. vm_compute. reflexivity. Qed.
Example test_acceleration :
  sim (cfg2 10 0) [A 0; B 7; A 12; B 15; A 17; B 18] = Some [[12; 7]; [17; 18]].
Proof. vm_compute. reflexivity. Qed.
Example test_dropped_1 :
  sim (cfg2 1 0) [A 0; B 1; B 3; A 4; B 7; A 8; A 10; B 11; A 13; B 14] = Some [[4; 3]; [10; 11]].
Proof. vm_compute. reflexivity. Qed.
Example test_dropped_2 :
  sim (cfg2 2 0) [A 0; B 1; B 3; A 4; B 7; A 8; A 10; B 11; A 13; B 14]
  = Some [[0; 1]; [4; 3]; [8; 7]; [10; 11]].
Proof. vm_compute. reflexivity. Qed.
Example test_long_queue :
  sim (cfg2 5 0) (map A [0; 1; 2; 3; 4; 5; 6; 7; 8] ++ [B 3] ++ map A [9; 10; 11; 12] ++ [B 10; A 13])
  = Some [[10; 10]].
Proof. vm_compute. reflexivity. Qed.
Example test_double_publish :
  sim (cfg2 10 0) [A 0; B 1; B 3; A 3] = Some [[0; 1]; [3; 3]].
Proof. vm_compute. reflexivity. Qed.
Example test_four_topics :
  sim (cfg4 10) [A 0; B 1; C 2; D 3; A 5; D 5; B 6; C 6; A 8; B 9; C 10; D 11; A 10; A 13; B 14]
  = Some [[0; 1; 2; 3]; [5; 6; 6; 5]; [10; 9; 10; 11]].
Proof. vm_compute. reflexivity. Qed.
Example test_early_publish :
  sim (cfg4 10) [A 0; B 1; C 2; D 3; A 7] = Some [[0; 1; 2; 3]].
Proof. vm_compute. reflexivity. Qed.
(** seconds scaled by two, to express the bound 1.5 s *)
Example test_rate_bound_1 :
  sim (cfg2 10 3) [A 0; B 2; A 6; B 8; A 12; B 14] = Some [[0; 2]; [6; 8]].
Proof. vm_compute. reflexivity. Qed.
Example test_rate_bound_2 :
  sim (cfg2 10 4) [A 0; B 2; A 6; B 8; A 12; B 14] = Some [[0; 2]; [6; 8]; [12; 14]].
Proof. vm_compute. reflexivity. Qed.

(** A non-trivial case of the hypotheses of C30-C33 and C60: the history of
    test_imperfect_match, followed by more messages. *)
Definition exh : list (nat * Z) := [A 0; B 1; A 2; A 3; B 5; A 6; B 7].
Definition exF (i : nat) : list Z := match i with O => [0; 2; 3; 6; 9; 10] | _ => [1; 5; 7; 11] end.

Lemma spaced_check (l : list Z) b :
  (fix chk l := match l with a :: ((a' :: _) as t) => (a + b <=? a') && chk t | _ => true end) l = true ->
  spaced (fun z => z) b l.
Proof.
  intros H k. revert l H. induction k as [|k IH]; intros [|a [|a' l]] H e e' H1 H2; try discriminate.
  - cbn in H1, H2. injection H1 as <-. injection H2 as <-. apply andb_prop in H as (H & _). now apply Z.leb_le.
  - apply andb_prop in H as (_ & H). exact (IH (a' :: l) H e e' H1 H2).
Qed.

Example C31_hypotheses_met :
  scaling 0 11 10 (scale (cfg2 10 1)) /\ respects (fun z => z) 2 (bound (cfg2 10 1)) exF /\
  (forall i, (i < 2)%nat -> prefix (stream i exh) (exF i)) /\
  no_overflow (fun z => z) (cfg2 10 1) exh /\ sim (cfg2 10 1) exh = Some [[0; 1]; [6; 5]].
Proof.
  split; [apply scale_by_scaling; lia|]. split.
  { intros [|[|i]] Hi; [| |lia]; (split; [cbn; lia|]); apply spaced_check; reflexivity. }
  split.
  { intros [|[|i]] Hi; [| |lia]; eexists; reflexivity. }
  split; [|vm_compute; reflexivity].
  apply C33_approx_no_overflow_if_small_backlog; [cbn; lia|cbn; lia| |].
  - intros i e Hin. cbn in *. intuition (match goal with H : _ = _ |- _ => injection H as <- <- end; lia).
  - intros h1 i e h2 s o Eh _. change (queue_size (cfg2 10 1)) with 10%nat.
    assert (length (h1 ++ [(i, e)]) <= 7)%nat.
    { change 7%nat with (length exh). rewrite Eh, !app_length. cbn. lia. }
    assert (forall l : list (nat * Z), (length (stream i l) <= length l)%nat) as HL.
    { unfold stream. intros l. rewrite map_length. induction l as [|x l IH]; cbn; auto.
      destruct (Nat.eqb _ _); cbn; lia. }
    specialize (HL (h1 ++ [(i, e)])). lia.
Qed.

(** Two interleavings of the same streams give the same sets here. *)
Example C33_example :
  sim (cfg2 10 1) [A 0; A 2; B 1; A 3; A 6; B 5; B 7] = sim (cfg2 10 1) exh.
Proof. vm_compute. reflexivity. Qed.
(** With overflow the interleaving matters, so the premise of C33 is needed. *)
Example C33_overflow_matters :
  sim (cfg2 1 0) [A 0; A 2; B 1; B 5; A 6; B 6] = Some [[6; 5]] /\
  sim (cfg2 1 0) [A 0; B 1; B 5; A 2; A 6; B 6] = Some [[6; 6]].
Proof. vm_compute. auto. Qed.

(** A perfect match after an unfinished past: C34 applies after a first set. *)
Example C34_hypotheses_met :
  exists s, run (fun z => z) (cfg2 10 0) (init (cfg2 10 0)) [A 0; B 0; A 5] = Ok (s, [[0; 0]]) /\
  pivot s = None /\ (forall j, nth j (dropped s) false = false) /\
  nth 0 (pending s) [] = [5] /\ nth 1 (pending s) [] = [] /\
  exists s', add (fun z => z) (cfg2 10 0) s (B 5) = Ok (s', [[5; 5]]).
Proof.
  eexists. split; [vm_compute; reflexivity|]. split; [reflexivity|].
  split; [intros [|[|[|j]]]; reflexivity|]. split; [reflexivity|]. split; [reflexivity|].
  eexists. vm_compute. reflexivity.
Qed.

(** C61, refuted for copies made in the middle of a search: candidate_ is not copied, so
    the copy hands null messages to the callback. *)
Theorem C61_approx_copy_anytime_refuted :
  exists s outs s' outs',
    run (fun z => z) (cfg2 10 0) (init (cfg2 10 0)) [A 0; B 1] = Ok (s, outs) /\
    run (fun z => z) (cfg2 10 0) s [A 3; B 4] = Ok (s', outs') /\ outs' = [[0; 1]] /\
    run (fun z => z) (cfg2 10 0) (copy s) [A 3; B 4] = Err UB.
Proof.
  do 4 eexists. split; [vm_compute; reflexivity|]. split; [vm_compute; reflexivity|].
  split; vm_compute; reflexivity.
Qed.

(** C62, converse refuted: a violation goes unnoticed when the earlier message has
    already left the queue. *)
Theorem C62_approx_warning_complete_refuted :
  exists s outs,
    run (fun z => z) (cfg2 10 0) (init (cfg2 10 0)) [A 10; B 10; A 5] = Ok (s, outs) /\
    stream 0 [A 10; B 10; A 5] = [10; 5] /\ warned s = [false; false].
Proof. do 2 eexists. split; [vm_compute; reflexivity|]. split; reflexivity. Qed.
(** C62 is not vacuous: a violation that is noticed. *)
Example C62_warns :
  exists s outs,
    run (fun z => z) (cfg2 10 0) (init (cfg2 10 0)) [A 10; A 5] = Ok (s, outs) /\
    warned s = [true; false].
Proof. do 2 eexists. split; [vm_compute; reflexivity|]. reflexivity. Qed.

Print Assumptions C27_approx_never_fails.
Print Assumptions C28_approx_subsequence.
Print Assumptions C28_approx_keeps_most_recent.
Print Assumptions C29_approx_bounded.
Print Assumptions C30_approx_max_interval.
Print Assumptions C31_approx_optimal.
Print Assumptions C32_approx_next_set.
Print Assumptions C32_approx_next_set_unique.
Print Assumptions C32_approx_found_set.
Print Assumptions C32_approx_found_set_unique.
Print Assumptions C32_approx_contiguous.
Print Assumptions C32_approx_contiguous_unlimited.
Print Assumptions C33_approx_order_independent.
Print Assumptions C33_approx_no_overflow_if_small_backlog.
Print Assumptions C34_approx_perfect_match_now.
Print Assumptions C34_approx_no_perfect_match_left.
Print Assumptions C60_approx_progress.
Print Assumptions C61_approx_copy_idle.
Print Assumptions C61_approx_copy_anytime_refuted.
Print Assumptions C62_approx_warning_sound.
Print Assumptions C62_approx_warning_complete_refuted.
