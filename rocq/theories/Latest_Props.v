(** Properties C35-C38 and C64-C66: the LatestTime policy.  [n] is the number of inputs,
    [f] the floating-point operations (arbitrary unless a hypothesis says otherwise),
    [run f n d (init n) h] performs the calls [h] on a new policy. *)
From Coq Require Import List Arith ZArith Lia Bool QArith Qabs.
From Verif Require Import Base RclTime Trace Latest_Model Latest_Spec Latest_Proofs.
Import ListNotations.
Open Scope nat_scope.

(** Exact rational arithmetic, for the examples. *)
Module Ex.
  Definition qops : fops Q := mkFops Q 0%Q 1%Q
    (fun a b => Qred (Qplus a b)) (fun a b => Qred (Qminus a b)) (fun a b => Qred (Qmult a b))
    (fun a b => Qred (Qdiv a b)) (fun a => Qred (Qabs a))
    (fun a b => negb (Qle_bool a b)) Qle_bool Qeq_bool (fun z => Qred (z # 1000000000)).
  Definition dflt : config Q := mkConfig (9 # 10)%Q (3 # 10)%Q 10%Q.
  Definition T (ms : Z) : time := mkTime (ms * 1000000) RosClock.
  Definition S_ (ms : Z) : time := mkTime (ms * 1000000) SystemClock.
  Definition outs {A B} (r : res (A * B)) : option B := match r with Ok (_, o) => Some o | _ => None end.
  Definition go n h := outs (run (E := nat) qops n dflt (init n) h).

  (** test_latest_time_policy.cpp:131-156 (Leading): inputs 1 and 2 at half and a quarter
      of the rate of input 0, 20 ms steps *)
  Definition leading (k : nat) : list (op nat Q) :=
    flat_map (fun idx =>
      let t := T (20 * Z.of_nat idx) in
      (if idx mod 2 =? 0 then [Add 1 (100 + idx) t] else []) ++
      (if idx mod 4 =? 0 then [Add 2 (200 + idx) t] else []) ++ [Add 0 idx t]) (seq 0 k).
  (** test_latest_time_policy.cpp:158-184 (Trailing) *)
  Definition trailing (k : nat) : list (op nat Q) :=
    flat_map (fun idx =>
      let t := T (20 * Z.of_nat idx) in
      (if idx mod 2 =? 1 then [Add 1 (100 + idx) t] else []) ++
      (if idx mod 4 =? 3 then [Add 2 (200 + idx) t] else []) ++ [Add 0 idx t]) (seq 0 k).
  Definition published (o : option (list (outcome nat))) : option (list (list nat)) :=
    option_map (flat_map (fun x => match x with Published s => [s] | _ => [] end)) o.
End Ex.

(** The expectations of the two tests. *)
Example test_leading : Ex.published (Ex.go 3 (Ex.leading 8)) =
  Some [[1; 100; 200]; [2; 102; 200]; [3; 102; 200]; [4; 104; 204]; [5; 104; 204]; [6; 106; 204]; [7; 106; 204]].
Proof. vm_compute. reflexivity. Qed.
Example test_trailing : Ex.published (Ex.go 3 (Ex.trailing 8)) =
  Some [[3; 103; 203]; [4; 103; 203]; [5; 105; 203]; [6; 105; 203]; [7; 107; 207]].
Proof. vm_compute. reflexivity. Qed.

(** The first seven calls of the example, with the output of the seventh. *)
Ltac wi := let H := fresh in intros ? ? ? H; cbn in H;
  repeat (destruct H as [H|H]; [injection H as <- <- <-; auto|]); try destruct H.

Section Props.
Context {E D : Type} (f : fops D) (n : nat) (d : config D).
Notation run := (run (E := E) f n d).
Notation init := (init (E := E) (D := D) n).

(** C35: what is output by the [k]-th call, and when. *)
Theorem C35_latest_outputs_latest h s outs k o set :
  well_indexed n h -> run init h = Ok (s, outs) ->
  nth_error h k = Some o -> nth_error outs k = Some (Published set) ->
  length set = n /\
  (forall j, j < n -> received j (firstn (S k) h) <> [] /\
                      nth_error set j = latest j (firstn (S k) h)) /\
  exists i e t, o = Add i e t /\ received i (firstn k h) <> [].
Proof.
  intros HW Hr Ho Hx. destruct (run_inv f n d h s outs HW Hr) as [_ HL].
  destruct (run_at f n d h s outs k o (Published set) Hr HL Ho Hx) as (s1 & o1 & s2 & H1 & H2 & H3).
  assert (HW1 : forall m, well_indexed n (firstn m h)).
  { intros m i e t Hin. eapply HW. rewrite <- (firstn_skipn m h). apply in_or_app. left. exact Hin. }
  destruct (run_inv f n d _ s1 o1 (HW1 k) H1) as [HI1 _]. destruct (run_inv f n d _ s2 _ (HW1 (S k)) H3) as [HI2 _].
  destruct o as [i e t|cs]; cbn [step] in H2; [|discriminate].
  assert (Hi : i < n) by (eapply HW; eapply nth_error_In; eauto).
  destruct (add_cases f n d _ s1 i e t HI1 Hi) as [(_ & Hs)|[(_ & _ & Hs)|(Hrec & Hlt & r & r' & b & x & Hn & Hc & Hs & _ & _ & HP)]];
    rewrite Hs in H2; [discriminate|discriminate|]. injection H2 as <- ->.
  destruct (proj1 (HP set) eq_refl) as (_ & _ & Hf). destruct (full_spec _ _ Hf) as [Hlen Hnth].
  pose proof (inv_len _ _ _ HI2) as Hl2. pose proof (inv_latest _ _ _ HI2) as HLat.
  split; [congruence|]. split.
  - intros j Hj. rewrite Hl2 in Hnth. rewrite <- (HLat j Hj). split; [|auto].
    intros Habs. apply latest_none in Habs. rewrite <- HLat in Habs by auto.
    destruct (full_iff (events (mkState (upd i (Some e) (events s1)) (upd i r' (rates s1)) (configs s1)))) as [HF _].
    apply (HF (ex_intro _ set Hf) j); auto. now rewrite Hl2.
  - exists i, e, t. auto.
Qed.

(** One outcome per call. *)
Theorem C35_latest_one_outcome_per_call h s outs :
  well_indexed n h -> run init h = Ok (s, outs) -> length outs = length h.
Proof. intros HW Hr. now apply (run_inv f n d h s outs). Qed.

(** C36: the calls that can be made safely are exactly those where every input receiving a
    message other than its first has an index below the number of inputs that have
    started. *)
Theorem C36_latest_memory_safe_iff h :
  well_indexed n h -> ((exists s outs, run init h = Ok (s, outs)) <-> enough_started n h).
Proof. apply safe_iff. Qed.

(** In particular when inputs start in index order, or all inputs receive their first
    messages before any receives its second. *)
Theorem C36_latest_memory_safe_partial h :
  well_indexed n h -> started_in_order n h \/ all_once_first n h -> exists s outs, run init h = Ok (s, outs).
Proof.
  intros HW H. apply safe_iff; auto. destruct H; [now apply in_order_enough|now apply all_once_enough].
Qed.

(** The only failure is this access beyond the end. *)
Theorem C36_latest_only_failure h er : well_indexed n h -> run init h = Err er -> er = UB.
Proof.
  induction h as [|o h IH] using rev_ind; intros HW Hr; [discriminate|].
  apply well_indexed_snoc in HW as [HW Ho]. rewrite run_snoc in Hr.
  destruct (run init h) as [[s outs]|er'] eqn:Hrh; cbn [bind] in Hr; [|injection Hr as <-; auto].
  destruct (run_inv f n d h s outs HW Hrh) as [HI _].
  destruct o as [i e t|cs]; cbn [step] in Hr; [|discriminate]. specialize (Ho i e t eq_refl).
  destruct (add_cases f n d _ s i e t HI Ho) as [(_ & Hs)|[(_ & _ & Hs)|(_ & _ & r & r' & b & x & _ & _ & Hs & _)]];
    rewrite Hs in Hr; cbn in Hr; congruence.
Qed.

(** C37: termination, for every floating-point behaviour; two passes are enough. *)
Theorem C37_latest_rate_terminates fuel now r :
  2 <= fuel -> exists r' valid, hz_loop f fuel now r = Ok (r', valid).
Proof.
  intros H. destruct fuel as [|[|fuel]]; try lia. rewrite hz_loop_more.
  destruct (compute_hz_total f now r) as (r' & b & Hc & _). eauto.
Qed.

(** The estimate is left untouched when the source differs or the clock has not advanced;
    otherwise it is updated and its time becomes the reading. *)
Theorem C37_latest_rate_ignores_stalled_clock now r :
  (forall z, fle f (fsecs f z) (fzero f) = (z <=? 0)%Z) ->
  ((clk (prev r) <> clk now \/ (ns now <= ns (prev r))%Z) -> compute_hz f now r = Ok (r, false)) /\
  (clk (prev r) = clk now -> (ns (prev r) < ns now)%Z ->
     exists r', compute_hz f now r = Ok (r', true) /\ prev r' = now /\ conf r' = conf r).
Proof.
  intros Hsec. destruct (compute_hz_total f now r) as (r' & b & Hc & Hcf & Hb). split.
  - intros H. destruct b; [|now subst r']. exfalso. apply compute_hz_valid in Hc as (z & Hz & Hl).
    unfold time_sub in Hz. destruct (clock_eqb_spec (clk now) (clk (prev r))); [|discriminate]. injection Hz as <-.
    rewrite Hsec in Hl. apply Z.leb_gt in Hl. destruct H; [congruence|lia].
  - intros Hk Ht. destruct b; [exists r'; tauto|]. exfalso. subst r'.
    apply compute_hz_invalid in Hc as [Hc|(z & Hz & Hl)]; [congruence|].
    unfold time_sub in Hz. destruct (clock_eqb_spec (clk now) (clk (prev r))); [|discriminate]. injection Hz as <-.
    rewrite Hsec in Hl. apply Z.leb_le in Hl. lia.
Qed.

(** For the user: with one clock source and inputs starting in index order, a message
    arriving while the clock shows no more than at an earlier message of its input
    triggers nothing. *)
Theorem C37_latest_stalled_clock_is_quiet k h i e t e' t' s outs :
  (forall z, fle f (fsecs f z) (fzero f) = (z <=? 0)%Z) ->
  well_indexed n (h ++ [Add i e' t']) -> started_in_order n (h ++ [Add i e' t']) -> one_clock k (h ++ [Add i e' t']) ->
  In (Add i e t) h -> (ns t' <= ns t)%Z ->
  run init h = Ok (s, outs) ->
  exists s', run init (h ++ [Add i e' t']) = Ok (s', outs ++ [Quiet]) /\ rates s' = rates s.
Proof.
  intros Hsec HW HO HK Hin Ht Hr. apply well_indexed_snoc in HW as [HW Hi]. specialize (Hi i e' t' eq_refl).
  apply in_order_snoc in HO as [HO _].
  assert (HK' : one_clock k h) by (intros ? ? ? H; eapply HK; apply in_or_app; left; eauto).
  assert (Hk : clk t' = k) by (eapply HK; apply in_or_app; right; left; eauto).
  destruct (in_order_slots f n d k h s outs Hsec HW HO HK' Hr i e t Hin) as (r & Hn & Hrk & Hp).
  destruct (run_inv f n d h s outs HW Hr) as [HI _].
  rewrite run_snoc, Hr. cbn [bind step].
  destruct (add_cases f n d h s i e' t' HI Hi) as [(Hrec & _)|[(_ & Hle & _)|(_ & _ & r0 & r' & b & x & Hn0 & Hc & Hs & HB & _)]].
  - exfalso. clear - Hin Hrec. unfold received, stream, adds in Hrec. apply in_split in Hin as (h1 & h2 & ->).
    rewrite flat_map_app, filter_app, map_app in Hrec. apply app_eq_nil in Hrec as [_ Hrec].
    cbn in Hrec. rewrite Nat.eqb_refl in Hrec. discriminate.
  - exfalso. rewrite <- (inv_rates _ _ _ HI) in Hle. assert (i < length (rates s)) by (apply nth_error_Some; congruence). lia.
  - rewrite Hn in Hn0. injection Hn0 as <-.
    rewrite (proj1 (C37_latest_rate_ignores_stalled_clock t' r Hsec)) in Hc by (right; lia).
    injection Hc as <- <-. specialize (HB eq_refl). subst x. rewrite Hs. cbn [bind]. eexists. split; [reflexivity|].
    cbn [rates]. apply list_eq_nth with (d := r); [now rewrite upd_length|].
    intros j Hj. destruct (Nat.eq_dec i j) as [->|Hne].
    + rewrite nth_upd_eq by (rewrite upd_length in Hj; auto). symmetry. now apply nth_error_nth.
    + now rewrite nth_upd_neq.
Qed.

(** C38: copying the policy keeps messages and rates but drops the configuration: whatever
    was configured, inputs starting afterwards use the defaults. *)
Remark copy_forgets_config (s : state E D) i : config_for n d (copy s) i = d.
Proof. reflexivity. Qed.

(** C38, C64: what holds is that the configuration set on the policy in use when an input
    starts is the one that governs the rate of that input, if inputs start in index
    order. *)
Theorem C38_latest_config_in_place_partial h1 i e t h2 s outs :
  well_indexed n (h1 ++ Add i e t :: h2) -> started_in_order n (h1 ++ Add i e t :: h2) ->
  received i h1 = [] -> run init (h1 ++ Add i e t :: h2) = Ok (s, outs) ->
  nth_error (map (@conf D) (rates s)) i = Some (expected_config n d (last_config h1) i).
Proof. apply in_order_conf. Qed.

(** C65: with one clock source no call throws. *)
Theorem C65_latest_one_clock_never_throws_partial k h s outs :
  well_indexed n h -> one_clock k h -> run init h = Ok (s, outs) -> ~ In Threw outs.
Proof. intros HW HK Hr. now apply (one_clock_inv f n d k h s outs). Qed.

(** After changing to a clock of another source when every input has started, nothing is
    ever output again. *)
Theorem C65_latest_clock_change_silences k h s outs h2 s2 outs2 :
  well_indexed n h -> one_clock k h -> run init h = Ok (s, outs) -> (forall i, i < n -> received i h <> []) ->
  well_indexed n h2 -> (forall i e t, In (Add i e t) h2 -> clk t <> k) -> run s h2 = Ok (s2, outs2) ->
  forall x, In x outs2 -> x = Quiet.
Proof. apply clock_change_silent. Qed.

(** C66: an addition outputs exactly if the clock advanced since the reading kept for the
    input, every input has a message, and the input is the fastest that is not late. *)
Theorem C66_latest_pivot k h i e t s outs s' x r :
  well_indexed n (h ++ [Add i e t]) -> one_clock k (h ++ [Add i e t]) ->
  run init h = Ok (s, outs) -> received i h <> [] -> nth_error (rates s) i = Some r ->
  run init (h ++ [Add i e t]) = Ok (s', outs ++ [x]) -> comparable f (rates s') ->
  (exists set, x = Published set) <->
  fle f (fsecs f (ns t - ns (prev r))) (fzero f) = false /\
  (forall j, j < n -> received j (h ++ [Add i e t]) <> []) /\
  fastest f t (rates s') i.
Proof.
  intros HW HK Hr Hrec Hn Hr' HC.
  assert (HW0 := HW). apply well_indexed_snoc in HW as [HW Hi]. specialize (Hi i e t eq_refl).
  assert (HK' : one_clock k h) by (intros ? ? ? H; eapply HK; apply in_or_app; left; eauto).
  assert (Hk : clk t = k) by (eapply HK; apply in_or_app; right; left; eauto).
  destruct (run_inv f n d h s outs HW Hr) as [HI _]. destruct (run_inv f n d _ s' _ HW0 Hr') as [HI' _].
  destruct (one_clock_inv f n d k h s outs HW HK' Hr) as [HCk _].
  destruct (one_clock_inv f n d k _ s' _ HW0 HK Hr') as [HCk' _].
  rewrite run_snoc, Hr in Hr'. cbn [bind step] in Hr'.
  destruct (add_cases f n d h s i e t HI Hi) as [(H & _)|[(_ & _ & Hs)|(_ & _ & r0 & r' & b & x0 & Hn0 & Hc & Hs & HB & _ & HP)]];
    [congruence|rewrite Hs in Hr'; discriminate|]. rewrite Hs in Hr'. cbn [bind] in Hr'.
  inversion Hr' as [[Hs' Hx]]. apply app_inj_tail in Hx as [_ ->].
  rewrite Hn in Hn0. injection Hn0 as <-.
  assert (Hb : b = true <-> fle f (fsecs f (ns t - ns (prev r))) (fzero f) = false).
  { assert (Hrk : clk (prev r) = k) by (apply HCk; now apply nth_error_In in Hn).
    assert (Hsub : time_sub t (prev r) = Ok (ns t - ns (prev r))%Z).
    { unfold time_sub. destruct (clock_eqb_spec (clk t) (clk (prev r))); congruence. }
    destruct b.
    - apply compute_hz_valid in Hc as (z & Hz & Hl). rewrite Hsub in Hz. injection Hz as <-. tauto.
    - apply compute_hz_invalid in Hc as [Hc|(z & Hz & Hl)]; [congruence|]. rewrite Hsub in Hz. injection Hz as <-.
      rewrite Hl. split; discriminate. }
  rewrite Hs' in HP |- *.
  assert (Hfull : (exists set, full (events s') = Some set) <-> (forall j, j < n -> received j (h ++ [Add i e t]) <> [])).
  { rewrite full_iff, (inv_len _ _ _ HI'). split; intros H j Hj; specialize (H j Hj); rewrite ?(inv_latest _ _ _ HI' j Hj) in *.
    - intros H'. apply H. now apply latest_none.
    - intros H'. apply H. now apply latest_none. }
  rewrite <- Hfull, <- Hb. split.
  - intros (set & ->). destruct (proj1 (HP set) eq_refl) as (H1 & H2 & H3). split; [auto|]. split; [eauto|].
    now apply find_pivot_fastest.
  - intros (H1 & (set & H2) & H3). exists set. apply HP. split; [auto|]. split; [|auto].
    apply (fastest_find_pivot f k); auto.
Qed.
End Props.

(** ** Non-vacuity and refutations *)
(** Inputs 1, 2, 0 of the leading example: the eighth call publishes. *)
Example C35_nonvacuous : exists s outs,
  run Ex.qops 3 Ex.dflt (init 3) (Ex.leading 8) = Ok (s, outs) /\ nth_error outs 3 = Some (Published [1; 100; 200]) /\
  well_indexed 3 (Ex.leading 8).
Proof.
  eexists _, _. split; [vm_compute; reflexivity|]. split; [reflexivity|]. wi; lia.
Qed.

(** C36 is false in general: two messages on the last input before any other. *)
Theorem C36_latest_memory_safe_refuted :
  well_indexed (D := Q) 2 [Add 1 7 (Ex.T 0); Add 1 8 (Ex.T 20)] /\
  run Ex.qops 2 Ex.dflt (init 2) [Add 1 7 (Ex.T 0); Add 1 8 (Ex.T 20)] = Err UB.
Proof. split; [wi; lia|reflexivity]. Qed.

Example C36_nonvacuous : all_once_first 3 (Ex.leading 2) /\ ~ started_in_order 3 (Ex.leading 2).
Proof.
  split.
  - intros h1 i j e t h2 Heq Hr Hj. cbn in Heq.
    destruct h1 as [|? [|? [|? [|? h1]]]]; cbn in Heq; inversion Heq; subst; cbn in Hr; try congruence.
    + cbn. destruct j as [|[|[|j]]]; [discriminate|discriminate|discriminate|lia].
    + destruct h1; discriminate.
  - intros H. specialize (H [] 1 0 100 (Ex.T 0) (tl (Ex.leading 2)) eq_refl ltac:(lia)). apply H. reflexivity.
Qed.

Example C37_nonvacuous : forall z, fle Ex.qops (fsecs Ex.qops z) (fzero Ex.qops) = (z <=? 0)%Z.
Proof.
  intros z. change (Qle_bool (Qred (z # 1000000000)) 0 = (z <=? 0)%Z). apply eq_true_iff_eq.
  rewrite Qle_bool_iff, Z.leb_le. transitivity ((z # 1000000000) <= 0)%Q.
  - split; apply Qle_trans; apply Qle_lteq; right; [symmetry|]; apply Qred_correct.
  - unfold Qle. cbn. lia.
Qed.

Example C37_quiet_nonvacuous :
  started_in_order 2 [Add 0 1 (Ex.T 0); Add 1 2 (Ex.T 0); Add 0 3 (Ex.T 20); Add (D := Q) 0 4 (Ex.T 20)] /\
  one_clock RosClock [Add 0 1 (Ex.T 0); Add 1 2 (Ex.T 0); Add 0 3 (Ex.T 20); Add (D := Q) 0 4 (Ex.T 20)] /\
  Ex.go 2 [Add 0 1 (Ex.T 0); Add 1 2 (Ex.T 0); Add 0 3 (Ex.T 20); Add 0 4 (Ex.T 20)]
    = Some [Quiet; Quiet; Published [3; 2]; Quiet].
Proof.
  split; [|split; [wi; reflexivity|vm_compute; reflexivity]].
  intros h1 i j e t h2 Heq Hj.
  destruct h1 as [|? [|? [|? [|? h1]]]]; cbn in Heq; inversion Heq; subst; try lia.
  - assert (j = 0) by lia. subst. discriminate.
  - destruct h1; discriminate.
Qed.

(** C38 is false: the same calls on a configured policy and on a synchronizer constructed
    from it give different outputs (a large step-change margin is forgotten, so the rate
    estimate is reset).  [h] is what happens after the construction. *)
Definition C38_configured : state nat Q := mkState (repeat None 2) [] [mkConfig (1 # 10) (3 # 10) 1000]%Q.
Definition C38_calls : list (op nat Q) :=
  [Add 0 1 (Ex.T 0); Add 1 2 (Ex.T 0); Add 0 3 (Ex.T 10); Add 1 4 (Ex.T 20); Add 0 5 (Ex.T 21);
   Add 0 6 (Ex.T 30); Add 1 7 (Ex.T 41); Add 1 8 (Ex.T 42); Add 1 9 (Ex.T 43); Add 0 10 (Ex.T 60); Add 1 11 (Ex.T 61);
   Add 1 12 (Ex.T 62)].
Theorem C38_latest_config_survives_copy_refuted :
  run Ex.qops 2 Ex.dflt (init 2) [SetConfig [mkConfig (1 # 10) (3 # 10) 1000]%Q] = Ok (C38_configured, [Quiet]) /\
  Ex.outs (run Ex.qops 2 Ex.dflt C38_configured C38_calls) <>
  Ex.outs (run Ex.qops 2 Ex.dflt (copy C38_configured) C38_calls).
Proof. split; [reflexivity|]. vm_compute. discriminate. Qed.

Example C38_nonvacuous :
  exists s outs, run Ex.qops 2 Ex.dflt (init 2)
    ([SetConfig [mkConfig 1 2 3; mkConfig 4 5 6]%Q; Add 0 1 (Ex.T 0)] ++ Add 1 2 (Ex.T 0) :: []) = Ok (s, outs) /\
  nth_error (map (@conf Q) (rates s)) 1 = Some (mkConfig 4 5 6)%Q.
Proof. eexists _, _. split; reflexivity. Qed.

(** C64 is false: with inputs starting in the order 1, 0 each input gets the other's
    configuration. *)
Theorem C64_latest_config_per_input_refuted :
  exists s outs, run Ex.qops 2 Ex.dflt (init 2)
    [SetConfig [mkConfig 1 2 3; mkConfig 4 5 6]%Q; Add 1 7 (Ex.T 0); Add 0 8 (Ex.T 0)] = Ok (s, outs) /\
  expected_config 2 Ex.dflt [mkConfig 1 2 3; mkConfig 4 5 6]%Q 0 = (mkConfig 1 2 3)%Q /\
  map (@conf Q) (rates (E := nat) s) = [mkConfig 4 5 6; mkConfig 1 2 3]%Q.
Proof. eexists _, _. split; [reflexivity|]. split; reflexivity. Qed.
Theorem C64_latest_config_per_input_partial {E D} (f : fops D) n d h1 i (e : E) t h2 s outs :
  well_indexed n (h1 ++ Add i e t :: h2) -> started_in_order n (h1 ++ Add i e t :: h2) ->
  received i h1 = [] -> run f n d (init n) (h1 ++ Add i e t :: h2) = Ok (s, outs) ->
  nth_error (map (@conf D) (rates s)) i = Some (expected_config n d (last_config h1) i).
Proof. apply in_order_conf. Qed.

(** C65 is false: a clock change between the first messages of two inputs can make a
    later addition throw. *)
Theorem C65_latest_clock_change_refuted :
  Ex.go 2 [Add 0 1 (Ex.T 0); Add 0 2 (Ex.T 10); Add 1 3 (Ex.S_ 10); Add 1 4 (Ex.S_ 110)] = Some [Quiet; Quiet; Quiet; Threw].
Proof. vm_compute. reflexivity. Qed.

Example C65_nonvacuous : Ex.go 2 [Add 0 1 (Ex.T 0); Add 1 2 (Ex.T 0); Add 0 3 (Ex.T 20); Add 0 4 (Ex.S_ 40); Add 1 5 (Ex.S_ 60)]
  = Some [Quiet; Quiet; Published [3; 2]; Quiet; Quiet].
Proof. vm_compute. reflexivity. Qed.

(** C66: exact arithmetic is comparable on every list of rates. *)
Example C66_nonvacuous rs : comparable Ex.qops rs.
Proof.
  assert (G : forall a b : Q, negb (Qle_bool a b) = true <-> (b < a)%Q).
  { intros a b. rewrite negb_true_iff, <- not_true_iff_false, Qle_bool_iff. split; [apply Qnot_le_lt|apply Qlt_not_le]. }
  assert (G' : forall a b : Q, negb (Qle_bool a b) = false <-> (a <= b)%Q).
  { intros a b. now rewrite negb_false_iff, Qle_bool_iff. }
  cbn. split; [|split].
  - intros a _. apply G'. apply Qle_refl.
  - intros a b c _ _ _ H1 H2. apply G in H1, H2. apply G. eapply Qlt_trans; eauto.
  - intros a b c _ _ _ H1 H2. apply G' in H1, H2. apply G'. eapply Qle_trans; eauto.
Qed.

Print Assumptions C35_latest_outputs_latest.
Print Assumptions C35_latest_one_outcome_per_call.
Print Assumptions C36_latest_memory_safe_iff.
Print Assumptions C36_latest_memory_safe_partial.
Print Assumptions C36_latest_only_failure.
Print Assumptions C36_latest_memory_safe_refuted.
Print Assumptions C37_latest_rate_terminates.
Print Assumptions C37_latest_rate_ignores_stalled_clock.
Print Assumptions C37_latest_stalled_clock_is_quiet.
Print Assumptions C38_latest_config_in_place_partial.
Print Assumptions C38_latest_config_survives_copy_refuted.
Print Assumptions C64_latest_config_per_input_refuted.
Print Assumptions C64_latest_config_per_input_partial.
Print Assumptions C65_latest_one_clock_never_throws_partial.
Print Assumptions C65_latest_clock_change_silences.
Print Assumptions C65_latest_clock_change_refuted.
Print Assumptions C66_latest_pivot.
