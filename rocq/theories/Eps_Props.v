(** Properties C22-C26: ApproximateEpsilonTime.  [run stamp n q eps (init n) h] is the
    policy with [n] inputs, queue size [q] and tolerance [eps] after the additions [h].
    Stamps are int64 nanoseconds, hence the bound by [int64_max]. *)
From Coq Require Import List Arith ZArith Lia Bool Sorted Permutation.
From Verif Require Import Base RclTime Trace Eps_Model Eps_Spec Eps_Proofs.
Import ListNotations.
Local Open Scope Z_scope.

(** The messages of input [i] held by the policy. *)
Definition pending {E} (i : nat) (s : state E) : list E := nth i (events s) [].

Section Props.
Context {E : Type} (stamp : E -> Z).
Hypothesis int64 : forall e, stamp e <= int64_max.
Notation run := (run stamp).

(** C22: every output set has one message per input and spans at most epsilon. *)
Theorem C22_eps_sets_fit n q eps h s outs set :
  (0 < n)%nat -> 0 <= eps -> well_indexed n h ->
  run n q eps (init n) h = Ok (s, outs) -> In set outs ->
  length set = n /\ forall a b, In a set -> In b set -> stamp a - stamp b <= eps.
Proof.
  intros Hn He HW Hr Hs. destruct (run_basic stamp n q eps int64 He h Hn HW) as (s' & o' & Hr' & _ & _ & H & _).
  rewrite Hr in Hr'. injection Hr' as <- <-. destruct (H set Hs) as [HL HF]. auto.
Qed.

(** C23: per input, what was output followed by what is still pending is a subsequence
    of what was received. *)
Theorem C23_eps_subsequence n q eps h s outs i :
  (0 < n)%nat -> 0 <= eps -> well_indexed n h ->
  run n q eps (init n) h = Ok (s, outs) ->
  subseq (column i outs ++ pending i s) (stream i h).
Proof.
  intros Hn He HW Hr. destruct (run_basic stamp n q eps int64 He h Hn HW) as (s' & o' & Hr' & _ & _ & _ & H & _).
  rewrite Hr in Hr'. injection Hr' as <- <-. apply H.
Qed.

(** C23 + C22: every message of a set was received on the input of its position. *)
Theorem C23_eps_set_slots n q eps h s outs set i e :
  (0 < n)%nat -> 0 <= eps -> well_indexed n h ->
  run n q eps (init n) h = Ok (s, outs) -> In set outs -> nth_error set i = Some e -> In (i, e) h.
Proof.
  intros Hn He HW Hr Hs Hi. apply stream_in. eapply subseq_in; [eapply C23_eps_subsequence; eauto|].
  apply in_or_app; left. unfold column. apply in_flat_map. exists set. rewrite Hi. cbn; auto.
Qed.

(** C24: at most [q] pending per input, and some input has nothing pending. *)
Theorem C24_eps_bounded n q eps h s outs :
  (0 < n)%nat -> 0 <= eps -> well_indexed n h ->
  run n q eps (init n) h = Ok (s, outs) ->
  (forall i, (length (pending i s) <= q)%nat) /\ (exists i, (i < n)%nat /\ pending i s = []).
Proof.
  intros Hn He HW Hr. destruct (run_basic stamp n q eps int64 He h Hn HW) as (s' & o' & Hr' & HI & Hc & _ & _ & H).
  rewrite Hr in Hr'. injection Hr' as <- <-. split; auto. destruct HI as [HL HC].
  destruct (cnt_empty (events s)) as (i & Hi & He'); [congruence|]. exists i. split; [lia|exact He'].
Qed.

(** C24: an addition while some other input has nothing pending outputs nothing, appends
    the message and, beyond the queue size, drops the message of its input that was
    received first; nothing else changes. *)
Theorem C24_eps_overflow_drops_oldest n q eps h s outs i e :
  (0 < n)%nat -> 0 <= eps -> well_indexed n h -> (i < n)%nat ->
  run n q eps (init n) h = Ok (s, outs) ->
  (exists j, (j < n)%nat /\ j <> i /\ pending j s = []) ->
  exists s', add stamp n q eps s (i, e) = Ok (s', []) /\
    pending i s' = skipn (S (length (pending i s)) - q) (pending i s ++ [e]) /\
    forall j, j <> i -> pending j s' = pending j s.
Proof.
  intros Hn He HW Hi Hr. destruct (run_basic stamp n q eps int64 He h Hn HW) as (s' & o' & Hr' & HI & Hc & _ & _ & H).
  rewrite Hr in Hr'. injection Hr' as <- <-. apply add_incomplete; auto.
Qed.

(** C63: if, with the new message, every input has a pending message and the oldest
    received ones span at most epsilon, exactly they are output at once. *)
Theorem C63_eps_outputs_when_heads_fit n q eps h s outs i e set :
  (0 < n)%nat -> 0 <= eps -> well_indexed n h -> (i < n)%nat ->
  run n q eps (init n) h = Ok (s, outs) ->
  length set = n ->
  (forall j, (j < n)%nat -> nth_error set j = hd_error (pending j s ++ (if Nat.eqb j i then [e] else []))) ->
  (forall a b, In a set -> In b set -> stamp a - stamp b <= eps) ->
  exists s' rest, add stamp n q eps s (i, e) = Ok (s', set :: rest).
Proof.
  intros Hn He HW Hi Hr Hl Hset Hfit. destruct (run_basic stamp n q eps int64 He h Hn HW) as (s' & o' & Hr' & HI & _).
  rewrite Hr in Hr'. injection Hr' as <- <-. apply add_complete; auto.
Qed.

(** C25: for epsilon >= 0 every addition terminates and none throws. *)
Theorem C25_eps_total n q eps h :
  (0 < n)%nat -> 0 <= eps -> well_indexed n h ->
  exists s outs, run n q eps (init n) h = Ok (s, outs).
Proof.
  intros Hn He HW. destruct (run_basic stamp n q eps int64 He h Hn HW) as (s' & o' & Hr' & _). eauto.
Qed.

(** C25: with a negative epsilon and two or more inputs, the addition that makes all
    inputs non-empty never returns: no number of iterations is enough. *)
Theorem C25_eps_negative_diverges n eps s outs fuel :
  (2 <= n)%nat -> eps < 0 ->
  length (events s) = n -> (forall i, (i < n)%nat -> pending i s <> []) -> count s = n ->
  process stamp n eps fuel s outs = Err OutOfFuel.
Proof.
  intros Hn He HL Hp Hc. apply process_negative; auto. split; auto. rewrite Hc, <- HL. symmetry. apply cnt_full.
  intros v Hv. apply In_nth_error in Hv as [i Hi]. specialize (Hp i).
  unfold pending in Hp. rewrite (nth_error_nth _ _ _ Hi) in Hp. apply Hp.
  rewrite <- HL. apply nth_error_Some. congruence.
Qed.

(** C26: time-ordered inputs; two inputs, or any number of inputs whose messages come in
    groups separated by more than epsilon.  Then every message is output, still pending,
    evicted by queue overflow ([V], empty when the input never exceeds the queue size),
    or discarded ([D]); and for a discarded message there is another input none of whose
    discarded, pending or future messages is within epsilon of it. *)
Theorem C26_eps_discards_only_unusable_partial n q eps h s outs :
  (0 < n)%nat -> 0 <= eps -> well_indexed n h -> time_ordered stamp n h ->
  n = 2%nat \/ close_transitive stamp eps h ->
  run n q eps (init n) h = Ok (s, outs) ->
  exists D V : nat -> list E,
    (forall i, Permutation (stream i h) (column i outs ++ D i ++ V i ++ pending i s)) /\
    (forall i, (length (stream i h) <= q)%nat -> V i = []) /\
    (forall j x, In x (D j) ->
       exists k, (k < n)%nat /\ k <> j /\
         forall h' y, time_ordered stamp n (h ++ h') ->
           In y (D k ++ pending k s ++ stream k h') -> ~ close stamp eps x y).
Proof.
  intros Hn He HW HT HTr Hr.
  destruct (run_acct stamp n q eps int64 He h Hn HW HT HTr) as (s' & o' & Hr' & _ & _ & D & V & (HA & HV & _) & _ & HU).
  rewrite Hr in Hr'. injection Hr' as <- <-. exists D, V. split; auto. split; auto.
  intros j x Hx. destruct (HU j x Hx) as (k & Hk & Hjk & Hy & y0 & Hy0 & Hlt).
  exists k. split; auto. split; auto. intros h' y HT' Hin. rewrite app_assoc in Hin.
  apply in_app_or in Hin as [Hin|Hin]; [apply Hy; auto|].
  specialize (HT' k Hk). rewrite stream_app in HT'. apply StronglySorted_app in HT' as (_ & _ & HT').
  specialize (HT' y0 y Hy0 Hin). cbn in HT'. unfold close. lia.
Qed.
End Props.

(** C26 is false as stated from three inputs on.  Time-ordered inputs, no overflow: message 9
    of input 1 is discarded although 15 of input 2 is pending and 10 of input 0
    follows, and {10, 9, 15} fits in epsilon = 10.  Nothing is ever output. *)
Theorem C26_eps_discards_only_unusable_refuted :
  exists (h : list (nat * Z)) s,
    time_ordered (fun z => z) 3 h /\ well_indexed 3 h /\
    stream 0 h = [0; 10] /\ stream 1 h = [9] /\ stream 2 h = [15] /\
    fits (fun z => z) 10 [10; 9; 15] /\
    run (fun z => z) 3 10 10 (init 3) h = Ok (s, []) /\
    pending 0 s = [10] /\ pending 1 s = [] /\ pending 2 s = [15].
Proof.
  exists [(0%nat, 0); (1%nat, 9); (2%nat, 15); (0%nat, 10)], (mkState 2 [[10]; []; [15]]).
  split; [|split; [|repeat split]].
  - intros [|[|[|i]]] Hi; [| | |lia]; cbv; repeat constructor; discriminate.
  - intros i e H. cbn in H. repeat (destruct H as [[= <- <-]|H]; [lia|]). destruct H.
  - intros a b Ha Hb. cbn in Ha, Hb.
    repeat (destruct Ha as [<-|Ha]; [repeat (destruct Hb as [<-|Hb]; [lia|]); destruct Hb|]). destruct Ha.
Qed.

(** ** Non-vacuity *)
(** Stamps as the theorems assume them: [ms_int64] *)
Definition ms (z : Z) : Z := Z.min z int64_max.
Example ms_int64 : forall z, ms z <= int64_max.
Proof. intros z. apply Z.le_min_r. Qed.
Definition ex_h : list (nat * Z) :=
  [(0%nat, 0); (1%nat, 3); (2%nat, 1); (0%nat, 20); (2%nat, 21); (1%nat, 41); (0%nat, 40); (2%nat, 42); (1%nat, 60)].
Example C22_C26_nonvacuous :
  well_indexed 3 ex_h /\ time_ordered ms 3 ex_h /\ close_transitive ms 5 ex_h /\
  run ms 3 5 5 (init 3) ex_h = Ok (mkState 1 [[]; [60]; []], [[0; 3; 1]; [40; 41; 42]]).
Proof.
  split; [|split; [|split]].
  - intros i e H. cbn in H. repeat (destruct H as [[= <- <-]|H]; [lia|]). destruct H.
  - intros [|[|[|i]]] Hi; [| | |lia]; unfold nondecreasing; cbn -[ms Z.le]; repeat constructor; vm_compute; discriminate.
  - assert (H : forallb (fun a => forallb (fun b => forallb (fun c : nat * Z =>
        negb ((Z.abs (ms (snd a) - ms (snd b)) <=? 5) && (Z.abs (ms (snd b) - ms (snd c)) <=? 5)) || (Z.abs (ms (snd a) - ms (snd c)) <=? 5))
        ex_h) ex_h) ex_h = true) by (vm_compute; reflexivity).
    intros i j k x y z Hx Hy Hz Hxy Hyz. unfold close in *.
    rewrite forallb_forall in H. specialize (H _ Hx). rewrite forallb_forall in H. specialize (H _ Hy).
    rewrite forallb_forall in H. specialize (H _ Hz). cbn [snd] in H. cbv beta in H.
    apply Z.leb_le in Hxy, Hyz. rewrite Hxy, Hyz in H. now apply Z.leb_le.
  - vm_compute; reflexivity.
Qed.
(** two inputs whose closeness is not transitive; 0 is discarded, 9/15 pair up *)
Example C26_two_inputs :
  run ms 2 5 10 (init 2) [(0%nat, 0); (0%nat, 9); (1%nat, 15); (1%nat, 18); (0%nat, 19)]
  = Ok (mkState 0 [[]; []], [[9; 15]; [19; 18]]).
Proof. vm_compute; reflexivity. Qed.
(** exactly epsilon apart is output *)
Example C63_nonvacuous :
  run ms 2 5 10 (init 2) [(0%nat, 0); (0%nat, 20)] = Ok (mkState 1 [[0; 20]; []], []) /\
  add ms 2 5 10 (mkState 1 [[0; 20]; []]) (1%nat, 10) = Ok (mkState 1 [[20]; []], [[0; 10]]).
Proof. split; vm_compute; reflexivity. Qed.
(** queue overflow evicts *)
Example C24_overflow :
  run ms 2 2 10 (init 2) [(0%nat, 0); (0%nat, 1); (0%nat, 2)] = Ok (mkState 1 [[1; 2]; []], []).
Proof. vm_compute; reflexivity. Qed.
(** the negative-epsilon case is reached by two ordinary additions *)
Example C25_negative_reached :
  run ms 2 5 (-1) (init 2) [(0%nat, 7)] = Ok (mkState 1 [[7]; []], []) /\
  forall fuel, process ms 2 (-1) fuel (mkState 2 [[7]; [7]]) [] = Err OutOfFuel.
Proof.
  split; [vm_compute; reflexivity|]. intros fuel. apply C25_eps_negative_diverges; try reflexivity; try lia; [apply ms_int64|].
  intros [|[|i]] Hi; cbn; (discriminate || lia).
Qed.

Print Assumptions C22_eps_sets_fit.
Print Assumptions C23_eps_subsequence.
Print Assumptions C23_eps_set_slots.
Print Assumptions C24_eps_bounded.
Print Assumptions C24_eps_overflow_drops_oldest.
Print Assumptions C63_eps_outputs_when_heads_fit.
Print Assumptions C25_eps_total.
Print Assumptions C25_eps_negative_diverges.
Print Assumptions C26_eps_discards_only_unusable_partial.
Print Assumptions C26_eps_discards_only_unusable_refuted.
