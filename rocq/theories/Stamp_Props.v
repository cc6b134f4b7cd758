(** Properties C92-C96: messages without a valid time.  [stamp e = None] says that reading the
    stamp of [e] throws, as it does for a header with negative seconds ([header_stamp],
    Stamp_Spec).  [run_x step s h = Ok (s', tr)]: the calls [h] one after the other, exceptions
    caught by the caller; [tr] has one entry per call, what it passed on and whether an exception
    left it; [emitted tr] is all that was passed on. *)
From Coq Require Import List Arith ZArith Lia Bool Permutation.
From Verif Require Import Base RclTime Trace Stamp_Model Stamp_Spec Stamp_Proofs.
From Verif Require Cache_Model Seq_Model.
From Verif Require Aligner_Model Aligner_Spec Aligner_Proofs Aligner_Props.
From Verif Require Exact_Model Exact_Spec Exact_Proofs Exact_Props.
From Verif Require Eps_Model Eps_Spec Eps_Proofs Stamp_Eps.
From Verif Require Approx_Model Approx_Spec Approx_Proofs Stamp_Approx.
Import ListNotations.
Local Open Scope Z_scope.

(** for the examples: a message is its header stamp and a tag *)
Definition msg : Type := msg_time * nat.
Definition at_ns (t : Z) (k : nat) : msg := (mkMsgTime 0 t, k).
Definition bad (k : nat) : msg := (mkMsgTime (-1) 0, k).
(* the bound is never reached by header fields of 32 bits; it is here because [msg_time] has none *)
Definition msg_stamp (m : msg) : option Z := option_map (Z.min (int64_max - 1)) (header_stamp (fst m)).
Example msg_stamp_int64 : forall x t, msg_stamp x = Some t -> t < int64_max.
Proof. intros x t. unfold msg_stamp. destruct (header_stamp (fst x)); [|discriminate]. cbn. intros [= <-]. lia. Qed.
Definition msg_rtime (m : msg) : option time := header_time (fst m).
(* the stamp, and 0 for messages without one *)
Definition msg_ns (m : msg) : Z := match msg_stamp m with Some t => t | None => 0 end.

(** A message without a valid time exists: negative seconds. *)
Theorem C92_negative_seconds_are_invalid m : sec m < 0 <-> header_stamp m = None.
Proof.
  unfold header_stamp, time_of_header. destruct (Z.ltb_spec (sec m) 0); split; intros; auto; try lia. discriminate.
Qed.

Definition or_zero {E} (stamp : E -> option Z) (e : E) : Z := match stamp e with Some t => t | None => 0 end.
Lemma or_zero_agrees {E} (stamp : E -> option Z) : agrees stamp (or_zero stamp).
Proof. intros e t H. unfold or_zero. now rewrite H. Qed.
Definition or_default {E} (stamp : E -> option time) (e : E) : time := match stamp e with Some t => t | None => time_default end.
Lemma or_default_agrees {E} (stamp : E -> option time) : agrees stamp (or_default stamp).
Proof. intros e t H. unfold or_default. now rewrite H. Qed.

Lemma filter_twice {A} (g : A -> bool) l : filter g (filter g l) = filter g l.
Proof. induction l as [|x l IH]; auto. cbn. destruct (g x) eqn:Ex; cbn; rewrite ?Ex, IH; auto. Qed.

Lemma in_without {E T I} (stamp : E -> option T) (message : I -> option E) x h :
  In x (without_invalid stamp message h) -> In x h /\ forall e, message x = Some e -> valid stamp e.
Proof.
  unfold without_invalid. intros H. apply filter_In in H as (H1 & H2). split; auto. intros e He.
  unfold adds_invalid in H2. rewrite He in H2. unfold valid. destruct (stamp e); [discriminate|discriminate].
Qed.

(** * C92: a refused message has no effect *)

(** ExactTime: the calls that add a message without a valid time throw and pass nothing on, the
    others do not throw, and all else is as if they had not been made. *)
Theorem C92_exact_refuses {E} (stamp : E -> option Z) f n q h :
  agrees stamp f ->
  exists tr,
    run_x (exact_add_x stamp n q) Exact_Model.init h =
      Ok (fst (Exact_Model.run f n q Exact_Model.init (without_invalid stamp added h)), tr) /\
    emitted tr = snd (Exact_Model.run f n q Exact_Model.init (without_invalid stamp added h)) /\
    only_invalid_throw stamp added h tr.
Proof.
  intros Hf. destruct (exact_transparent stamp n q f Hf Exact_Model.init h) as (tr & H1 & H2 & H3 & _).
  - apply exact_init_inv.
  - exists tr. auto.
Qed.

Example C92_exact_nonvacuous :
  run_x (exact_add_x msg_stamp 2 5) Exact_Model.init [(0%nat, at_ns 7 1); (1%nat, bad 2); (1%nat, at_ns 7 3)] =
    Ok (Exact_Model.mkState [] 7, [([], false); ([], true); ([Exact_Model.Signal [at_ns 7 1; at_ns 7 3]], false)]).
Proof. reflexivity. Qed.

(** InputAligner: the same. *)
Theorem C92_aligner_refuses {E} (stamp : E -> option Z) f n timeout h :
  agrees stamp f -> (forall e, f e < int64_max) -> (0 < n)%nat -> 0 <= timeout -> Aligner_Spec.well_indexed n h ->
  exists s tr,
    run_x (aligner_step_x stamp timeout) (Aligner_Model.init n) h = Ok (s, tr) /\
    Aligner_Model.run f timeout (Aligner_Model.init n) (without_invalid stamp al_message h) = Ok (s, emitted tr) /\
    only_invalid_throw stamp al_message h tr.
Proof.
  intros Hf Hmax Hn Ht [HW1 HW2].
  assert (Aligner_Spec.well_indexed n (without_invalid stamp al_message h)) as HW.
  { split; intros i x Hx; apply in_without in Hx as (Hx & _); eauto. }
  destruct (Aligner_Props.C47_aligner_total f Hmax n timeout _ Hn Ht HW) as (s & outs & Hr).
  pose proof (aligner_transparent stamp timeout f Hf n h HW1) as H. rewrite Hr in H.
  destruct H as (_ & tr & H1 & <- & H3). exists s, tr. auto.
Qed.

Example C92_aligner_nonvacuous :
  match run_x (aligner_step_x msg_stamp 10) (Aligner_Model.init 2)
     [Aligner_Model.Add 0 (at_ns 5 1); Aligner_Model.Add 1 (bad 2); Aligner_Model.Add 1 (at_ns 6 3); Aligner_Model.Dispatch] with
  | Ok (_, tr) => tr = [([], false); ([], true); ([], false); ([(0%nat, at_ns 5 1)], false)]
  | Err _ => False
  end.
Proof. reflexivity. Qed.

(** TimeSequencer: the calls that add a message without a valid time throw and pass nothing on,
    and the state and the messages passed on are as if they had not been made. *)
Theorem C92_sequencer_refuses {E} (stamp : E -> option time) queue_size delay h :
  exists s tr tr',
    run_x (seq_step_x stamp queue_size delay) Seq_Model.init h = Ok (s, tr) /\
    run_x (seq_step_x stamp queue_size delay) Seq_Model.init (without_invalid stamp seq_message h) = Ok (s, tr') /\
    emitted tr = emitted tr' /\
    Forall2 (fun x c => adds_invalid stamp seq_message x = true -> c = ([], true)) h tr.
Proof.
  destruct (seq_run_total stamp queue_size delay Seq_Model.init h) as (s & tr & Hr).
  destruct (seq_same_state stamp queue_size delay _ _ _ _ Hr) as (tr' & H1 & H2 & H3). exists s, tr, tr'. auto.
Qed.

(** If without them no call throws, then with them no other call does, and the result is that of
    the model without exceptions. *)
Theorem C92_sequencer_others_unaffected {E} (stamp : E -> option time) f queue_size delay h s outs :
  agrees stamp f ->
  Seq_Model.run f queue_size delay Seq_Model.init (without_invalid stamp seq_message h) = Ok (s, outs) ->
  exists tr, run_x (seq_step_x stamp queue_size delay) Seq_Model.init h = Ok (s, tr) /\ emitted tr = outs /\
    only_invalid_throw stamp seq_message h tr.
Proof. intros Hf. apply seq_transparent; auto. constructor. Qed.

(* the clock of the stamps in this example is the one of rclcpp::Time() *)
Definition sys_rtime (m : msg) : option time := match msg_stamp m with Some t => Some (mkTime t SystemClock) | None => None end.
Example C92_sequencer_nonvacuous :
  run_x (seq_step_x sys_rtime 5 10) Seq_Model.init
     [Seq_Model.Add (at_ns 5 1); Seq_Model.Add (bad 2); Seq_Model.Tick (fun _ => 20)] =
    Ok (Seq_Model.mkState [] (mkTime 5 SystemClock), [([], false); ([], true); ([at_ns 5 1], false)]) /\
  Seq_Model.run (or_default sys_rtime) 5 10 Seq_Model.init [Seq_Model.Add (at_ns 5 1); Seq_Model.Tick (fun _ => 20)] =
    Ok (Seq_Model.mkState [] (mkTime 5 SystemClock), [at_ns 5 1]).
Proof. split; reflexivity. Qed.

(** Cache: in every reachable state an invalid message is refused and not passed on.  Missing: the
    content is unchanged; if the cache is full, the oldest message is lost. *)
Theorem C92_cache_refuses_partial {E} (stamp : E -> option time) c h e :
  (0 < c)%nat -> invalid stamp e ->
  exists s tr s',
    run_x (cache_add_x stamp) (Cache_Model.ctor c) h = Ok (s, tr) /\
    cache_add_x stamp s e = Ok (s', [], true) /\ Cache_Model.cap s' = Cache_Model.cap s /\
    Cache_Model.contents s' =
      if (length (Cache_Model.contents s) <? c)%nat then Cache_Model.contents s else tl (Cache_Model.contents s).
Proof.
  intros Hc He. destruct (cache_run_ok stamp _ (or_default_agrees stamp) c h Hc _ (cache_init_inv stamp c Hc)) as (s & tr & Hr & HI & _).
  destruct (cache_add_ok stamp _ (or_default_agrees stamp) c s e Hc HI) as (s' & o & b & Ha & HI' & _ & Hinv & _).
  destruct (Hinv He) as (-> & -> & Hcon). exists s, tr, s'. split; auto. split; auto. split; auto.
  destruct HI as (-> & _). now destruct HI' as (-> & _).
Qed.

(** The full statement is false: a refused message evicts the oldest one of a full cache. *)
Theorem C92_cache_refuses_refuted :
  exists s tr s', run_x (cache_add_x msg_rtime) (Cache_Model.ctor 1) [at_ns 5 1] = Ok (s, tr) /\
    Cache_Model.contents s = [at_ns 5 1] /\
    cache_add_x msg_rtime s (bad 2) = Ok (s', [], true) /\ Cache_Model.contents s' = [].
Proof. eexists _, _, _. repeat split. Qed.

(** Valid messages are treated as in the model without exceptions. *)
Theorem C92_cache_valid_as_before {E} (stamp : E -> option time) f c h e :
  agrees stamp f -> (0 < c)%nat -> valid stamp e ->
  exists s tr s' o b,
    run_x (cache_add_x stamp) (Cache_Model.ctor c) h = Ok (s, tr) /\
    cache_add_x stamp s e = Ok (s', o, b) /\
    Cache_Model.add f e s = (s', if b then Cache_Model.Failed Thrown else Cache_Model.Forwarded e) /\
    o = if b then [] else [e].
Proof.
  intros Hf Hc He. destruct (cache_run_ok stamp f Hf c h Hc _ (cache_init_inv stamp c Hc)) as (s & tr & Hr & HI & _).
  destruct (cache_add_ok stamp f Hf c s e Hc HI) as (s' & o & b & Ha & _ & _ & _ & Hv).
  destruct (Hv He) as (H1 & H2). exists s, tr, s', o, b. auto.
Qed.

Example C92_cache_nonvacuous :
  run_x (cache_add_x msg_rtime) (Cache_Model.ctor 2) [at_ns 5 1; bad 2; at_ns 4 3] =
    Ok (Cache_Model.mkState (Some 2%nat) [at_ns 4 3; at_ns 5 1], [([at_ns 5 1], false); ([], true); ([at_ns 4 3], false)]).
Proof. reflexivity. Qed.

(** The approximate policies do not refuse it: the call returns normally and the message is held. *)
Theorem C92_approximate_refuses_refuted :
  forall c : Approx_Model.cfg, Approx_Model.n c = 2%nat -> Approx_Model.queue_size c = 5%nat ->
  exists s, run_x (approx_add_x msg_stamp c) (Approx_Model.init c) [(0%nat, bad 1)] = Ok (s, [([], false)]) /\
    Approx_Model.pending s = [[bad 1]; []].
Proof. intros [n q m sc bd] Hn Hq. cbn in *. subst. eexists. split; reflexivity. Qed.

Theorem C92_epsilon_refuses_refuted eps :
  exists s, run_x (eps_add_x msg_stamp 2 5 eps) (Eps_Model.init 2) [(0%nat, bad 1)] = Ok (s, [([], false)]) /\
    Eps_Model.events s = [[bad 1]; []].
Proof. eexists. split; reflexivity. Qed.

(** * C93: no message without a valid time is passed on *)

Theorem C93_exact_passes_only_valid {E} (stamp : E -> option Z) n q h s tr X :
  Exact_Spec.well_indexed n h ->
  run_x (exact_add_x stamp n q) Exact_Model.init h = Ok (s, tr) ->
  In X (Exact_Spec.signals (emitted tr)) -> Forall (valid stamp) X.
Proof.
  intros HW Hr HX. destruct (C92_exact_refuses stamp _ n q h (or_zero_agrees stamp)) as (tr' & H1 & H2 & _).
  rewrite Hr in H1. injection H1 as _ <-. rewrite H2 in HX.
  apply Exact_Props.C16_exact_sets_match in HX as (t & HL & HM).
  - apply Forall_forall. intros e He. apply In_nth_error in He as (j & Hj). apply HM in Hj as (Hj & _).
    apply in_without in Hj as (_ & Hv). now apply Hv.
  - intros i e Hie. apply in_without in Hie as (Hie & _). eauto.
Qed.

Theorem C93_aligner_passes_only_valid {E} (stamp : E -> option Z) n timeout h s tr i e :
  (forall x t, stamp x = Some t -> t < int64_max) -> (0 < n)%nat -> 0 <= timeout -> Aligner_Spec.well_indexed n h ->
  run_x (aligner_step_x stamp timeout) (Aligner_Model.init n) h = Ok (s, tr) ->
  In (i, e) (emitted tr) -> valid stamp e.
Proof.
  intros Hmax Hn Ht HW Hr Hin.
  assert (forall x, or_zero stamp x < int64_max) as Hm.
  { intros x. unfold or_zero. destruct (stamp x) eqn:Ex; eauto. reflexivity. }
  destruct (C92_aligner_refuses stamp _ n timeout h (or_zero_agrees stamp) Hm Hn Ht HW) as (s' & tr' & H1 & H2 & _).
  rewrite Hr in H1. injection H1 as <- <-.
  assert (Aligner_Spec.well_indexed n (without_invalid stamp al_message h)) as HW'.
  { destruct HW as [HW1 HW2]. split; intros j x Hx; apply in_without in Hx as (Hx & _); eauto. }
  assert (In (i, e) (Aligner_Spec.adds (without_invalid stamp al_message h))) as Hadd.
  { apply in_split in Hin as (o1 & o2 & Ho).
    destruct (Aligner_Props.C48_aligner_never_overtakes _ Hm n timeout _ s _ o1 i e o2 Hn Ht HW' H2 Ho) as (_ & _ & _ & _ & _ & _ & Hi & _).
    destruct (Aligner_Props.C45_aligner_accounting _ Hm n timeout _ s _ i Hn Ht HW' H2 Hi) as (lost & st & HP & _).
    assert (In e (stream i (Aligner_Spec.adds (without_invalid stamp al_message h)))) as Hs.
    { eapply Permutation_in; [apply Permutation_sym; exact HP|]. apply in_or_app. left. rewrite Ho. unfold stream.
      apply in_map_iff. exists (i, e). split; auto. apply filter_In. split; [apply in_or_app; cbn; auto|]. cbn. apply Nat.eqb_refl. }
    unfold stream in Hs. apply in_map_iff in Hs as ((j & x) & Hx & Hf). cbn in Hx. subst x. apply filter_In in Hf as (Hf & Hj).
    cbn in Hj. apply Nat.eqb_eq in Hj. now subst j. }
  unfold Aligner_Spec.adds in Hadd. apply in_flat_map in Hadd as (o & Ho & Hoe). destruct o as [j x| |]; cbn in Hoe; try tauto.
  destruct Hoe as [[= -> ->]|[]]. apply in_without in Ho as (_ & Hv). now apply Hv.
Qed.

(** TimeSequencer; nor is one kept. *)
Theorem C93_sequencer_passes_only_valid {E} (stamp : E -> option time) queue_size delay h s tr :
  run_x (seq_step_x stamp queue_size delay) Seq_Model.init h = Ok (s, tr) ->
  Forall (valid stamp) (emitted tr) /\ Forall (valid stamp) (Seq_Model.messages s).
Proof. intros Hr. apply (seq_valid stamp queue_size delay _ _ _ _) in Hr; auto. constructor. Qed.

(** Cache; nor is one kept. *)
Theorem C93_cache_passes_only_valid {E} (stamp : E -> option time) c h s tr :
  (0 < c)%nat -> run_x (cache_add_x stamp) (Cache_Model.ctor c) h = Ok (s, tr) ->
  Forall (valid stamp) (emitted tr) /\ Forall (valid stamp) (Cache_Model.contents s).
Proof.
  intros Hc Hr. destruct (cache_run_ok stamp _ (or_default_agrees stamp) c h Hc _ (cache_init_inv stamp c Hc)) as (s' & tr' & Hr' & (_ & _ & H1) & H2).
  rewrite Hr in Hr'. injection Hr' as <- <-. auto.
Qed.

Theorem C93_approximate_passes_only_valid {E} (stamp : E -> option Z) (c : Approx_Model.cfg) h s tr :
  (0 < Approx_Model.n c)%nat -> (0 < Approx_Model.queue_size c)%nat -> Approx_Spec.well_indexed (Approx_Model.n c) h ->
  run_x (approx_add_x stamp c) (Approx_Model.init c) h = Ok (s, tr) ->
  Forall (Forall (valid stamp)) (emitted tr).
Proof.
  intros Hn Hq HW Hr.
  destruct (Stamp_Approx.run_x_ok stamp c _ (or_zero_agrees stamp) Hn Hq h HW _ (Stamp_Approx.init_XI stamp c _ Hn)) as (s' & tr' & Hr' & _ & HF & _).
  rewrite Hr in Hr'. injection Hr' as <- <-. clear -HF. induction HF as [|X l [_ HX] _ IH]; constructor; auto.
Qed.

Theorem C93_epsilon_passes_only_valid {E} (stamp : E -> option Z) n q eps h s tr :
  (0 < n)%nat -> 0 <= eps -> (forall x t, stamp x = Some t -> t <= int64_max) -> Eps_Spec.well_indexed n h ->
  run_x (eps_add_x stamp n q eps) (Eps_Model.init n) h = Ok (s, tr) ->
  Forall (Forall (valid stamp)) (emitted tr).
Proof.
  intros Hn He Hmax HW Hr.
  assert (forall x, or_zero stamp x <= int64_max) as Hm.
  { intros x. unfold or_zero. destruct (stamp x) eqn:Ex; eauto. discriminate. }
  destruct (Stamp_Eps.run_x_ok stamp n q eps _ (or_zero_agrees stamp) Hm He Hn h HW _ (Stamp_Eps.live_init n Hn)) as (s' & tr' & Hr' & _ & HF & _).
  rewrite Hr in Hr'. injection Hr' as <- <-. clear -HF. induction HF as [|X l (_ & _ & HX) _ IH]; constructor; auto.
Qed.

(** * C94: a message without a valid time does not stop a synchronizer *)

(** ExactTime outputs the same sets with and without them. *)
Theorem C94_exact_unaffected {E} (stamp : E -> option Z) n q h :
  exists s tr tr',
    run_x (exact_add_x stamp n q) Exact_Model.init h = Ok (s, tr) /\
    run_x (exact_add_x stamp n q) Exact_Model.init (without_invalid stamp added h) = Ok (s, tr') /\
    emitted tr = emitted tr'.
Proof.
  destruct (C92_exact_refuses stamp _ n q h (or_zero_agrees stamp)) as (tr & H1 & H2 & _).
  destruct (C92_exact_refuses stamp _ n q (without_invalid stamp added h) (or_zero_agrees stamp)) as (tr' & H1' & H2' & _).
  assert (without_invalid stamp added (without_invalid stamp added h) = without_invalid stamp added h) as Ei.
  { unfold without_invalid. apply filter_twice. }
  rewrite Ei in *. eexists _, tr, tr'. split; [exact H1|]. split; [exact H1'|]. now rewrite H2, H2'.
Qed.

(** ApproximateTime: if the first message of an input has no valid time and is still held when
    every input has had a message, nothing is ever output, whatever is received afterwards. *)
Theorem C94_approximate_blocked_forever {E} (stamp : E -> option Z) (c : Approx_Model.cfg) h1 h2 i b r :
  (0 < Approx_Model.n c)%nat -> (0 < Approx_Model.queue_size c)%nat ->
  Approx_Spec.well_indexed (Approx_Model.n c) (h1 ++ h2) -> (i < Approx_Model.n c)%nat ->
  stream i h1 = b :: r -> invalid stamp b -> (length (stream i h1) <= Approx_Model.queue_size c)%nat ->
  (forall j, (j < Approx_Model.n c)%nat -> stream j h1 <> []) ->
  exists s tr, run_x (approx_add_x stamp c) (Approx_Model.init c) (h1 ++ h2) = Ok (s, tr) /\ emitted tr = [].
Proof.
  intros Hn Hq HW Hi Hb Hinv Hlen Hall.
  destruct (Stamp_Approx.first_invalid stamp c _ (or_zero_agrees stamp) Hn Hq h1 i Hi) as (s1 & tr1 & Hr1 & He1 & HD); eauto.
  { intros j e Hje. apply (HW j e). apply in_or_app; auto. }
  destruct (Stamp_Approx.dead_run stamp c _ (or_zero_agrees stamp) Hn Hq h2) with (s := s1) as (s2 & tr2 & Hr2 & _ & He2); auto.
  { intros j e Hje. apply (HW j e). apply in_or_app; auto. }
  exists s2, (tr1 ++ tr2). rewrite run_x_app, Hr1. cbn [bind]. rewrite Hr2. cbn [bind]. split; auto.
  now rewrite emitted_app, He1, He2.
Qed.

(** ApproximateEpsilonTime: the same. *)
Theorem C94_epsilon_blocked_forever {E} (stamp : E -> option Z) n q eps h1 h2 i b r :
  (0 < n)%nat -> 0 <= eps -> (forall x t, stamp x = Some t -> t <= int64_max) ->
  Eps_Spec.well_indexed n (h1 ++ h2) -> (i < n)%nat ->
  stream i h1 = b :: r -> invalid stamp b -> (length (stream i h1) <= q)%nat ->
  (forall j, (j < n)%nat -> stream j h1 <> []) ->
  exists s tr, run_x (eps_add_x stamp n q eps) (Eps_Model.init n) (h1 ++ h2) = Ok (s, tr) /\ emitted tr = [].
Proof.
  intros Hn He Hmax HW Hi Hb Hinv Hlen Hall.
  assert (forall x, or_zero stamp x <= int64_max) as Hm.
  { intros x. unfold or_zero. destruct (stamp x) eqn:Ex; eauto. discriminate. }
  destruct (Stamp_Eps.first_invalid stamp n q eps _ (or_zero_agrees stamp) Hm He Hn h1 i Hi) as (s1 & tr1 & Hr1 & He1 & HD); eauto.
  { intros j e Hje. apply (HW j e). apply in_or_app; auto. }
  destruct (Stamp_Eps.run_x_dead stamp n q eps Hn h2) with (s := s1) as (s2 & tr2 & Hr2 & _ & He2 & _); auto.
  { intros j e Hje. apply (HW j e). apply in_or_app; auto. }
  exists s2, (tr1 ++ tr2). rewrite run_x_app, Hr1. cbn [bind]. rewrite Hr2. cbn [bind]. split; auto.
  rewrite emitted_app, He1. cbn [app]. clear -He2. induction He2 as [|x l <- _ IH]; auto.
Qed.

(** ApproximateEpsilonTime: after the first exception every call throws and passes nothing on. *)
Theorem C94_epsilon_first_exception_is_final {E} (stamp : E -> option Z) n q eps h s tr tr1 o tr2 :
  (0 < n)%nat -> 0 <= eps -> (forall x t, stamp x = Some t -> t <= int64_max) -> Eps_Spec.well_indexed n h ->
  run_x (eps_add_x stamp n q eps) (Eps_Model.init n) h = Ok (s, tr) ->
  tr = tr1 ++ (o, true) :: tr2 -> Forall (eq ([], true)) tr2.
Proof.
  intros Hn He Hmax HW Hr Htr.
  assert (forall x, or_zero stamp x <= int64_max) as Hm.
  { intros x. unfold or_zero. destruct (stamp x) eqn:Ex; eauto. discriminate. }
  destruct (Stamp_Eps.run_x_ok stamp n q eps _ (or_zero_agrees stamp) Hm He Hn h HW _ (Stamp_Eps.live_init n Hn)) as (s' & tr' & Hr' & _ & _ & _ & _ & H).
  rewrite Hr in Hr'. injection Hr' as <- <-. eapply H; eauto.
Qed.

(** So the sets output are not those output without these messages. *)
Definition blocking_history : list (nat * msg) := [(0%nat, bad 1); (1%nat, at_ns 3 2)].
Definition later_history : list (nat * msg) := [(0%nat, at_ns 9 3); (1%nat, at_ns 9 4); (0%nat, at_ns 19 5); (1%nat, at_ns 19 6); (0%nat, at_ns 29 7); (1%nat, at_ns 29 8)].
Definition example_cfg : Approx_Model.cfg := Approx_Model.mkCfg 2 5 1000 (fun d => d) (fun _ => 0).

Example C94_blocked_nonvacuous :
  Approx_Spec.well_indexed 2 (blocking_history ++ later_history) /\
  stream 0 blocking_history = [bad 1] /\ invalid msg_stamp (bad 1) /\
  (forall j, (j < 2)%nat -> stream j blocking_history <> []) /\
  (forall x t, msg_stamp x = Some t -> t <= int64_max).
Proof.
  split; [|split; [|split; [|split]]]; try reflexivity.
  - intros i e H. unfold blocking_history, later_history in H. cbn in H. repeat (destruct H as [[= <- <-]|H]; [lia|]). destruct H.
  - intros [|[|]] H; try lia; discriminate.
  - intros x t H. apply msg_stamp_int64 in H. lia.
Qed.

Theorem C94_approximate_unaffected_refuted :
  ~ (forall h, Approx_Spec.well_indexed 2 h -> forall s tr s' tr',
       run_x (approx_add_x msg_stamp example_cfg) (Approx_Model.init example_cfg) h = Ok (s, tr) ->
       run_x (approx_add_x msg_stamp example_cfg) (Approx_Model.init example_cfg) (without_invalid msg_stamp added h) = Ok (s', tr') ->
       emitted tr = emitted tr').
Proof.
  intros H. specialize (H (blocking_history ++ later_history) (proj1 C94_blocked_nonvacuous)).
  assert (exists s tr, run_x (approx_add_x msg_stamp example_cfg) (Approx_Model.init example_cfg) (blocking_history ++ later_history) = Ok (s, tr) /\ emitted tr = []) as (s & tr & H1 & H2)
    by (eexists _, _; split; [vm_compute; reflexivity|reflexivity]).
  assert (exists s tr, run_x (approx_add_x msg_stamp example_cfg) (Approx_Model.init example_cfg) (without_invalid msg_stamp added (blocking_history ++ later_history)) = Ok (s, tr) /\ emitted tr <> []) as (s' & tr' & H1' & H2')
    by (eexists _, _; split; [vm_compute; reflexivity|discriminate]).
  specialize (H _ _ _ _ H1 H1'). congruence.
Qed.

Theorem C94_epsilon_unaffected_refuted :
  ~ (forall h, Eps_Spec.well_indexed 2 h -> forall s tr s' tr',
       run_x (eps_add_x msg_stamp 2 5 1) (Eps_Model.init 2) h = Ok (s, tr) ->
       run_x (eps_add_x msg_stamp 2 5 1) (Eps_Model.init 2) (without_invalid msg_stamp added h) = Ok (s', tr') ->
       emitted tr = emitted tr').
Proof.
  intros H. specialize (H (blocking_history ++ later_history) (proj1 C94_blocked_nonvacuous)).
  assert (exists s tr, run_x (eps_add_x msg_stamp 2 5 1) (Eps_Model.init 2) (blocking_history ++ later_history) = Ok (s, tr) /\ emitted tr = []) as (s & tr & H1 & H2)
    by (eexists _, _; split; [vm_compute; reflexivity|reflexivity]).
  assert (exists s tr, run_x (eps_add_x msg_stamp 2 5 1) (Eps_Model.init 2) (without_invalid msg_stamp added (blocking_history ++ later_history)) = Ok (s, tr) /\ emitted tr <> []) as (s' & tr' & H1' & H2')
    by (eexists _, _; split; [vm_compute; reflexivity|discriminate]).
  specialize (H _ _ _ _ H1 H1'). congruence.
Qed.

(** * C95: the queues stay bounded *)

Theorem C95_exact_bounded {E} (stamp : E -> option Z) n q h s tr :
  Exact_Spec.well_indexed n h -> (0 < q)%nat ->
  run_x (exact_add_x stamp n q) Exact_Model.init h = Ok (s, tr) -> (length (Exact_Model.tuples s) <= q)%nat.
Proof.
  intros HW Hq Hr. destruct (C92_exact_refuses stamp _ n q h (or_zero_agrees stamp)) as (tr' & H1 & _).
  rewrite Hr in H1. injection H1 as -> _. apply Exact_Props.C19_exact_bounded; auto.
  intros i e Hie. apply in_without in Hie as (Hie & _). eauto.
Qed.

Theorem C95_cache_bounded {E} (stamp : E -> option time) c h s tr :
  (0 < c)%nat -> run_x (cache_add_x stamp) (Cache_Model.ctor c) h = Ok (s, tr) ->
  (length (Cache_Model.contents s) <= c)%nat.
Proof.
  intros Hc Hr. destruct (cache_run_ok stamp _ (or_default_agrees stamp) c h Hc _ (cache_init_inv stamp c Hc)) as (s' & tr' & Hr' & (_ & H1 & _) & _).
  rewrite Hr in Hr'. injection Hr' as <- <-. auto.
Qed.

(** ApproximateTime: an input that delivers only messages without a valid time holds them all,
    however many, whatever the queue size. *)
Theorem C95_approximate_bounded_refuted {E} (stamp : E -> option Z) (c : Approx_Model.cfg) h i :
  (0 < Approx_Model.n c)%nat -> (0 < Approx_Model.queue_size c)%nat ->
  Approx_Spec.well_indexed (Approx_Model.n c) h -> (i < Approx_Model.n c)%nat ->
  Forall (invalid stamp) (stream i h) ->
  exists s tr, run_x (approx_add_x stamp c) (Approx_Model.init c) h = Ok (s, tr) /\
    nth i (Approx_Model.pending s) [] = stream i h.
Proof.
  intros Hn Hq HW Hi HF.
  destruct (Stamp_Approx.all_invalid stamp c _ (or_zero_agrees stamp) Hn Hq h i Hi HW HF) as (s & tr & Hr & _ & HB & Hd & _).
  exists s, tr. split; auto. rewrite (Approx_Proofs.nth_pending c) by apply HB. destruct HB as [_ _ HP]. rewrite HP. exact Hd.
Qed.

Example C95_approximate_nonvacuous k :
  exists s tr, run_x (approx_add_x msg_stamp example_cfg) (Approx_Model.init example_cfg) (repeat (0%nat, bad 1) k) = Ok (s, tr) /\
    length (nth 0 (Approx_Model.pending s) []) = k.
Proof.
  assert (stream 0 (repeat (0%nat, bad 1) k) = repeat (bad 1) k) as Es by (induction k; cbn; f_equal; auto).
  destruct (C95_approximate_bounded_refuted msg_stamp example_cfg (repeat (0%nat, bad 1) k) 0) as (s & tr & Hr & Hp); cbn; try lia.
  - intros i e H. apply repeat_spec in H. injection H as -> ->. cbn. lia.
  - rewrite Es. apply Forall_forall. intros x Hx. apply repeat_spec in Hx. now subst.
  - exists s, tr. split; auto. now rewrite Hp, Es, repeat_length.
Qed.

(** ApproximateEpsilonTime: once a call has thrown, everything received is held, whatever the
    queue size. *)
Theorem C95_epsilon_bounded_refuted {E} (stamp : E -> option Z) n q eps h1 h2 s1 tr1 o :
  (0 < n)%nat -> 0 <= eps -> (forall x t, stamp x = Some t -> t <= int64_max) ->
  Eps_Spec.well_indexed n (h1 ++ h2) ->
  run_x (eps_add_x stamp n q eps) (Eps_Model.init n) h1 = Ok (s1, tr1) -> In (o, true) tr1 ->
  exists s2 tr2, run_x (eps_add_x stamp n q eps) (Eps_Model.init n) (h1 ++ h2) = Ok (s2, tr2) /\
    forall i, nth i (Eps_Model.events s2) [] = nth i (Eps_Model.events s1) [] ++ stream i h2.
Proof.
  intros Hn He Hmax HW Hr1 Hin.
  assert (forall x, or_zero stamp x <= int64_max) as Hm.
  { intros x. unfold or_zero. destruct (stamp x) eqn:Ex; eauto. discriminate. }
  assert (Eps_Spec.well_indexed n h1 /\ Eps_Spec.well_indexed n h2) as (HW1 & HW2).
  { split; intros j e Hje; apply (HW j e); apply in_or_app; auto. }
  destruct (Stamp_Eps.run_x_ok stamp n q eps _ (or_zero_agrees stamp) Hm He Hn h1 HW1 _ (Stamp_Eps.live_init n Hn)) as (s' & tr' & Hr' & _ & _ & _ & _ & H).
  rewrite Hr1 in Hr'. injection Hr' as <- <-. apply in_split in Hin as (a & b & Hab). destruct (H _ _ _ Hab) as (HD & _).
  destruct (Stamp_Eps.run_x_dead stamp n q eps Hn h2 HW2 _ HD) as (s2 & tr2 & Hr2 & _ & _ & Hat).
  exists s2, (tr1 ++ tr2). rewrite run_x_app, Hr1. cbn [bind]. rewrite Hr2. split; auto.
Qed.

Example C95_epsilon_nonvacuous :
  exists s1, run_x (eps_add_x msg_stamp 2 5 1) (Eps_Model.init 2) blocking_history = Ok (s1, [([], false); ([], true)]).
Proof. eexists. reflexivity. Qed.

(** * C96: exceptions from stamps do no other harm *)

(** ApproximateTime never fails an internal check nor loops; every set output is complete and
    consists of received messages in the order of their input. *)
Theorem C96_approximate_sound {E} (stamp : E -> option Z) (c : Approx_Model.cfg) h :
  (0 < Approx_Model.n c)%nat -> (0 < Approx_Model.queue_size c)%nat -> Approx_Spec.well_indexed (Approx_Model.n c) h ->
  exists s tr, run_x (approx_add_x stamp c) (Approx_Model.init c) h = Ok (s, tr) /\
    Forall (fun X => length X = Approx_Model.n c) (emitted tr) /\
    forall j, (j < Approx_Model.n c)%nat -> subseq (column j (emitted tr) ++ nth j (Approx_Model.pending s) []) (stream j h).
Proof.
  intros Hn Hq HW.
  destruct (Stamp_Approx.run_x_ok stamp c _ (or_zero_agrees stamp) Hn Hq h HW _ (Stamp_Approx.init_XI stamp c _ Hn)) as (s & tr & Hr & HI & HF & Hs & _).
  exists s, tr. split; auto. split.
  - clear -HF. induction HF as [|X l [HX _] _ IH]; constructor; auto.
  - intros j Hj. rewrite (Approx_Proofs.nth_pending c) by apply HI. specialize (Hs j Hj).
    assert (Approx_Proofs.pend (Approx_Model.init (E:=E) c) j = []) as Ep.
    { unfold Approx_Proofs.pend, Approx_Proofs.pa, Approx_Proofs.dq. cbn. now rewrite !Approx_Proofs.nth_repeat_nil. }
    rewrite Ep in Hs. exact Hs.
Qed.

(** As long as no call throws it behaves as the model without exceptions, and with valid stamps no
    call throws. *)
Theorem C96_approximate_as_before {E} (stamp : E -> option Z) f (c : Approx_Model.cfg) h s tr :
  agrees stamp f ->
  (0 < Approx_Model.n c)%nat -> (0 < Approx_Model.queue_size c)%nat -> Approx_Spec.well_indexed (Approx_Model.n c) h ->
  run_x (approx_add_x stamp c) (Approx_Model.init c) h = Ok (s, tr) ->
  (Forall (fun r => snd r = false) tr -> Approx_Model.run f c (Approx_Model.init c) h = Ok (s, emitted tr)) /\
  ((forall e, valid stamp e) -> Forall (fun r => snd r = false) tr).
Proof.
  intros Hf Hn Hq HW Hr.
  destruct (Stamp_Approx.run_x_ok stamp c f Hf Hn Hq h HW _ (Stamp_Approx.init_XI stamp c f Hn)) as (s' & tr' & Hr' & _ & _ & _ & H).
  rewrite Hr in Hr'. injection Hr' as <- <-. exact H.
Qed.

(** ApproximateEpsilonTime: the same; the stamps of a set differ by at most epsilon. *)
Theorem C96_epsilon_sound {E} (stamp : E -> option Z) n q eps h :
  (0 < n)%nat -> 0 <= eps -> (forall x t, stamp x = Some t -> t <= int64_max) -> Eps_Spec.well_indexed n h ->
  exists s tr, run_x (eps_add_x stamp n q eps) (Eps_Model.init n) h = Ok (s, tr) /\
    (forall X, In X (emitted tr) -> length X = n /\
       forall a b ta tb, In a X -> In b X -> stamp a = Some ta -> stamp b = Some tb -> ta - tb <= eps) /\
    forall j, subseq (column j (emitted tr) ++ nth j (Eps_Model.events s) []) (stream j h).
Proof.
  intros Hn He Hmax HW.
  assert (forall x, or_zero stamp x <= int64_max) as Hm.
  { intros x. unfold or_zero. destruct (stamp x) eqn:Ex; eauto. discriminate. }
  destruct (Stamp_Eps.run_x_ok stamp n q eps _ (or_zero_agrees stamp) Hm He Hn h HW _ (Stamp_Eps.live_init n Hn)) as (s & tr & Hr & _ & HF & Hs & _).
  exists s, tr. split; auto. split.
  - intros X HX. rewrite Forall_forall in HF. destruct (HF X HX) as (HL & Hfit & _). split; auto.
    intros a b ta tb Ha Hb Hta Htb. specialize (Hfit a b Ha Hb). unfold or_zero in Hfit. now rewrite Hta, Htb in Hfit.
  - intros j. specialize (Hs j). rewrite Eps_Proofs.init_at in Hs. exact Hs.
Qed.

Theorem C96_epsilon_as_before {E} (stamp : E -> option Z) f n q eps h s tr :
  agrees stamp f -> (forall x, f x <= int64_max) ->
  (0 < n)%nat -> 0 <= eps -> Eps_Spec.well_indexed n h ->
  run_x (eps_add_x stamp n q eps) (Eps_Model.init n) h = Ok (s, tr) ->
  (Forall (fun r => snd r = false) tr -> Eps_Model.run f n q eps (Eps_Model.init n) h = Ok (s, emitted tr)) /\
  ((forall e, valid stamp e) -> Forall (fun r => snd r = false) tr).
Proof.
  intros Hf Hm Hn He HW Hr.
  destruct (Stamp_Eps.run_x_ok stamp n q eps f Hf Hm He Hn h HW _ (Stamp_Eps.live_init n Hn)) as (s' & tr' & Hr' & _ & _ & _ & H1 & H2).
  rewrite Hr in Hr'. injection Hr' as <- <-. split; [apply H1|].
  intros Hall. apply Forall_forall. intros [o [|]] Hx; auto. exfalso. apply in_split in Hx as (a & b & Hab).
  destruct (H2 _ _ _ Hab) as ((_ & _ & v & e & _ & _ & Hinv) & _). apply (Hall e Hinv).
Qed.

Example C96_nonvacuous :
  match run_x (approx_add_x msg_stamp example_cfg) (Approx_Model.init example_cfg)
    [(0%nat, at_ns 3 1); (1%nat, at_ns 3 2); (0%nat, bad 3); (1%nat, at_ns 9 4); (0%nat, at_ns 9 5)] with
  | Ok (_, tr) => tr = [([], false); ([[at_ns 3 1; at_ns 3 2]], false); ([], false); ([], true); ([], true)]
  | Err _ => False
  end.
Proof. vm_compute. reflexivity. Qed.

Print Assumptions C92_negative_seconds_are_invalid.
Print Assumptions C92_exact_refuses.
Print Assumptions C92_aligner_refuses.
Print Assumptions C92_sequencer_refuses.
Print Assumptions C92_sequencer_others_unaffected.
Print Assumptions C92_cache_refuses_partial.
Print Assumptions C92_cache_refuses_refuted.
Print Assumptions C92_cache_valid_as_before.
Print Assumptions C92_approximate_refuses_refuted.
Print Assumptions C92_epsilon_refuses_refuted.
Print Assumptions C93_exact_passes_only_valid.
Print Assumptions C93_aligner_passes_only_valid.
Print Assumptions C93_sequencer_passes_only_valid.
Print Assumptions C93_cache_passes_only_valid.
Print Assumptions C93_approximate_passes_only_valid.
Print Assumptions C93_epsilon_passes_only_valid.
Print Assumptions C94_exact_unaffected.
Print Assumptions C94_approximate_blocked_forever.
Print Assumptions C94_epsilon_blocked_forever.
Print Assumptions C94_epsilon_first_exception_is_final.
Print Assumptions C94_approximate_unaffected_refuted.
Print Assumptions C94_epsilon_unaffected_refuted.
Print Assumptions C95_exact_bounded.
Print Assumptions C95_cache_bounded.
Print Assumptions C95_approximate_bounded_refuted.
Print Assumptions C95_epsilon_bounded_refuted.
Print Assumptions C96_approximate_sound.
Print Assumptions C96_approximate_as_before.
Print Assumptions C96_epsilon_sound.
Print Assumptions C96_epsilon_as_before.
