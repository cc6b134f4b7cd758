(** Properties C87-C88: callbacks that throw.  A history [h] pairs each call with an oracle
    saying which of the callbacks it calls throw; the caller catches the exception and goes on.
    [run_t step s h = Ok (s', tr)]: [tr] has one entry per call, the callbacks called and whether
    an exception left the call.  [begun tr] are all callbacks called, [returned tr] those that
    returned (Throw_Spec). *)
From Coq Require Import List Arith ZArith Lia Bool Sorted Permutation.
From Verif Require Import Base RclTime Trace Throw_Model Throw_Spec Throw_Proofs.
From Verif Require Cache_Model Latest_Model Seq_Model.
From Verif Require Aligner_Model Aligner_Spec Aligner_Proofs.
From Verif Require Exact_Model Exact_Spec Exact_Proofs.
From Verif Require Eps_Model Eps_Spec Eps_Proofs.
From Verif Require Approx_Model Approx_Spec Approx_Proofs Throw_Approx.
Import ListNotations.
Local Open Scope Z_scope.

(** oracles for the examples *)
Definition never : oracle := fun _ => false.
Definition always : oracle := fun _ => true.
Definition only (k : nat) : oracle := Nat.eqb k.

(** * The models with exceptions are those without, if no callback throws *)

Theorem C87_aligner_no_exceptions {E} (stamp : E -> Z) timeout s h :
  no_exceptions h ->
  match Aligner_Model.run stamp timeout s (calls_of h) with
  | Ok (s', outs) => exists tr, run_t (aligner_step_t stamp timeout) s h = Ok (s', tr) /\ begun tr = outs /\ returned tr = outs
  | Err e => run_t (aligner_step_t stamp timeout) s h = Err e
  end.
Proof.
  intros H. apply (quiet_run _ (Aligner_Model.step stamp timeout) (Aligner_Model.run stamp timeout)); auto.
  intros. now apply aligner_step_quiet.
Qed.

Theorem C87_eps_no_exceptions {E} (stamp : E -> Z) n q eps s h :
  no_exceptions h ->
  match Eps_Model.run stamp n q eps s (calls_of h) with
  | Ok (s', outs) => exists tr, run_t (eps_add_t stamp n q eps) s h = Ok (s', tr) /\ begun tr = outs /\ returned tr = outs
  | Err e => run_t (eps_add_t stamp n q eps) s h = Err e
  end.
Proof.
  intros H. apply (quiet_run _ (Eps_Model.add stamp n q eps) (Eps_Model.run stamp n q eps)); auto.
  intros. now apply eps_quiet.
Qed.

Theorem C87_approx_no_exceptions {E} (stamp : E -> Z) c s h :
  no_exceptions h ->
  match Approx_Model.run stamp c s (calls_of h) with
  | Ok (s', outs) => exists tr, run_t (approx_add_t stamp c) s h = Ok (s', tr) /\ begun tr = outs /\ returned tr = outs
  | Err e => run_t (approx_add_t stamp c) s h = Err e
  end.
Proof.
  intros H. apply (quiet_run _ (Approx_Model.add stamp c) (Approx_Model.run stamp c)); auto.
  intros. now apply approx_quiet.
Qed.

Theorem C87_sequencer_no_exceptions {E} (stamp : E -> time) q delay s h :
  no_exceptions h ->
  match Seq_Model.run stamp q delay s (calls_of h) with
  | Ok (s', outs) => exists tr, run_t (seq_step_t stamp q delay) s h = Ok (s', tr) /\ begun tr = outs /\ returned tr = outs
  | Err e => run_t (seq_step_t stamp q delay) s h = Err e
  end.
Proof.
  intros H. apply (quiet_run _ (Seq_Model.step stamp q delay) (Seq_Model.run stamp q delay)); auto.
  intros th s0 x Hth. unfold seq_step_t. destruct (Seq_Model.step stamp q delay s0 x) as [[s1 o]|]; cbn [bind]; auto.
  now rewrite signal_all_quiet.
Qed.

Theorem C87_exact_no_exceptions {E} (stamp : E -> Z) n q (s : Exact_Model.state E) h :
  no_exceptions h ->
  exists tr, run_t (exact_add_t stamp n q) s h = Ok (fst (Exact_Model.run stamp n q s (calls_of h)), tr) /\
    begun tr = snd (Exact_Model.run stamp n q s (calls_of h)) /\
    returned tr = snd (Exact_Model.run stamp n q s (calls_of h)).
Proof.
  revert s; induction h as [|[x th] h IH]; intros s Hne; cbn [calls_of map fst run_t Exact_Model.run].
  - exists []. auto.
  - apply no_exceptions_cons in Hne as (Hth & Hne). rewrite exact_quiet by auto. cbn [bind].
    destruct (Exact_Model.add stamp n q s x) as [s1 o1]. cbn [fst snd]. fold (calls_of h).
    destruct (IH s1 Hne) as (tr & E1 & E2 & E3). rewrite E1. cbn [bind].
    destruct (Exact_Model.run stamp n q s1 (calls_of h)) as [s2 o2]. cbn [fst snd] in *.
    eexists. split; [reflexivity|]. unfold begun, returned in *. cbn. now rewrite E2, E3.
Qed.

(** * C87: after any exceptions the filters are sound and usable *)

(** TimeSequencer: a tick that is left by an exception has passed on the first of the messages it
    would have passed on, and the next calls behave as if nothing had happened.  [alls] are the
    messages each call passes on without exceptions. *)
Theorem C87_sequencer_sound {E} (stamp : E -> time) q delay s h :
  match Seq_Model.run stamp q delay s (calls_of h) with
  | Ok (s', outs) => exists tr alls, run_t (seq_step_t stamp q delay) s h = Ok (s', tr) /\ outs = concat alls /\
      Forall2 (fun (c : list E * bool) all => if snd c then exists rest, all = fst c ++ rest else fst c = all) tr alls /\
      subseq (begun tr) outs
  | Err e => run_t (seq_step_t stamp q delay) s h = Err e
  end.
Proof.
  pose proof (seq_same stamp q delay s h) as H. destruct (Seq_Model.run stamp q delay s (calls_of h)) as [[s' outs]|]; auto.
  destruct H as (tr & alls & H1 & H2 & H3). exists tr, alls. split; auto. split; auto. split; [exact H3|].
  subst. now apply cut_short_subseq.
Qed.

(** InputAligner: no call ends in undefined behaviour or loops; the callbacks are called in the
    order of the stamps, with messages that were added; and per input every message added was
    passed on to a callback that returned, is still held, or arrived late, that is, with a stamp
    before that of a message some callback had been called with (or before time 0). *)
Theorem C87_aligner_sound {E} (stamp : E -> Z) n timeout h :
  (0 < n)%nat -> 0 <= timeout -> (forall e, stamp e < int64_max) -> Aligner_Spec.well_indexed n (calls_of h) ->
  exists s tr, run_t (aligner_step_t stamp timeout) (Aligner_Model.init n) h = Ok (s, tr) /\
    nondecreasing (fun x => stamp (snd x)) (begun tr) /\
    (forall x, In x (begun tr) -> In x (Aligner_Spec.adds (calls_of h))) /\
    forall j, exists late,
      Permutation (stream j (Aligner_Spec.adds (calls_of h)))
        (stream j (returned tr) ++ Aligner_Model.evs (nth j (Aligner_Model.queues s) Aligner_Model.queue_init) ++ late) /\
      forall d, In d late -> exists h1 th h2 s1 tr1,
        h = h1 ++ (Aligner_Model.Add j d, th) :: h2 /\
        run_t (aligner_step_t stamp timeout) (Aligner_Model.init n) h1 = Ok (s1, tr1) /\
        (stamp d < 0 \/ exists x, In x (begun tr1) /\ stamp d < stamp (snd x)).
Proof.
  intros Hn Ht Hs HW. destruct (aligner_run_t stamp n timeout Hs h Hn Ht HW) as (s & tr & Hr & [A1 A2 A3 A4 A5 A6 A7 A8 A9]).
  exists s, tr. split; auto.
Qed.

(** InputAligner: a dispatch without exceptions after any history with exceptions passes on
    everything it can: afterwards everything is passed on, or some input is waited for. *)
Theorem C87_aligner_recovers {E} (stamp : E -> Z) n timeout h s tr :
  (0 < n)%nat -> 0 <= timeout -> (forall e, stamp e < int64_max) -> Aligner_Spec.well_indexed n (calls_of h) ->
  run_t (aligner_step_t stamp timeout) (Aligner_Model.init n) h = Ok (s, tr) ->
  exists s' o, aligner_step_t stamp timeout never s Aligner_Model.Dispatch = Ok (s', o, false) /\
    let held j := Aligner_Model.evs (nth j (Aligner_Model.queues s') Aligner_Model.queue_init) in
    ((forall j, held j = []) \/
     (exists j, (j < n)%nat /\ held j = [] /\
        let q := nth j (Aligner_Model.queues s') Aligner_Model.queue_init in
        Aligner_Model.active q = true /\
        Aligner_Model.last_in s' - Aligner_Model.next_ts q < timeout /\
        forall k x, In x (held k) -> Aligner_Model.next_ts q <= stamp x)).
Proof.
  intros Hn Ht Hs HW Hr. destruct (aligner_run_t stamp n timeout Hs h Hn Ht HW) as (s0 & tr0 & Hr0 & HI).
  rewrite Hr in Hr0. injection Hr0 as <- <-.
  destruct (step_t_inv stamp n timeout Hs h s tr Aligner_Model.Dispatch never Hn Ht I Hr HI) as (s' & o & b & E1 & E2 & E3).
  destruct (E3 eq_refl (fun _ => eq_refl)) as (-> & HC). exists s', o. split; auto.
  destruct HC as [HC|(s1 & Hm)]; [left; exact HC|]. exact (stop_t stamp n timeout Hs _ _ _ _ _ E2 Hm).
Qed.

(** ExactTime: every set the callback is called with has one message per input, all received,
    with one stamp; and every message received is in a set passed to a callback that returned, or
    held, or was replaced by a later message of its input and stamp, or was reported to a drop
    callback that returned. *)
Theorem C87_exact_sound {E} (stamp : E -> Z) n q h :
  Exact_Spec.well_indexed n (calls_of h) ->
  exists s tr, run_t (exact_add_t stamp n q) Exact_Model.init h = Ok (s, tr) /\
    (forall ss, In ss (Exact_Spec.signals (begun tr)) -> exists t, Exact_Spec.matching_set stamp n (calls_of h) t ss) /\
    exists rest,
      Permutation (calls_of h)
        (flat_map Exact_Spec.tagged_set (Exact_Spec.signals (returned tr)) ++
         flat_map (fun kt => Exact_Spec.tagged (snd kt)) (Exact_Model.tuples s) ++ rest) /\
      forall x, In x rest -> Exact_Spec.replaced_in stamp (calls_of h) x \/
        exists t, In t (Exact_Spec.dropped (returned tr)) /\ In x (Exact_Spec.tagged t).
Proof.
  intros HW. destruct (exact_run_t stamp n q h HW) as (s & tr & H1 & _ & H2 & H3). exists s, tr. auto.
Qed.

(** ApproximateEpsilonTime: no failure; every set the callback is called with is complete, made of
    messages received on the inputs of their positions, and within epsilon; and per input
    what is held is the last part of what was received, and what was passed to callbacks that
    returned a subsequence of the part before. *)
Theorem C87_eps_sound {E} (stamp : E -> Z) n q eps h :
  (forall e, stamp e <= int64_max) -> 0 <= eps -> (0 < n)%nat -> Eps_Spec.well_indexed n (calls_of h) ->
  exists s tr, run_t (eps_add_t stamp n q eps) (Eps_Model.init n) h = Ok (s, tr) /\
    (forall set, In set (begun tr) -> length set = n /\ forall a b, In a set -> In b set -> stamp a - stamp b <= eps) /\
    (forall set i e, In set (begun tr) -> nth_error set i = Some e -> In (i, e) (calls_of h)) /\
    (forall i, exists gone, stream i (calls_of h) = gone ++ nth i (Eps_Model.events s) [] /\ subseq (column i (returned tr)) gone).
Proof.
  intros H1 H2 Hn HW. destruct (eps_run_t stamp n q eps H1 H2 h Hn HW) as (s & tr & E1 & _ & E2 & E3 & E4).
  exists s, tr. auto.
Qed.

(** ApproximateTime: no assertion fails, no empty queue is accessed and no loop runs forever,
    although an exception leaves the policy in the middle of its search; every set the callback is
    called with is complete and made of messages received on the inputs of their positions; and
    per input what is held is the last part of what was received, and what was passed to callbacks
    that returned a subsequence of the part before. *)
Theorem C87_approx_sound {E} (stamp : E -> Z) c h :
  (0 < Approx_Model.n c)%nat -> 0 <= Approx_Model.scale c 0 -> (0 < Approx_Model.queue_size c)%nat ->
  Approx_Spec.well_indexed (Approx_Model.n c) (calls_of h) ->
  exists s tr, run_t (approx_add_t stamp c) (Approx_Model.init c) h = Ok (s, tr) /\
    (forall set, In set (begun tr) -> length set = Approx_Model.n c) /\
    (forall set i e, In set (begun tr) -> nth_error set i = Some e -> In (i, e) (calls_of h)) /\
    (forall i, (i < Approx_Model.n c)%nat ->
       exists gone, stream i (calls_of h) = gone ++ nth i (Approx_Model.past s) [] ++ nth i (Approx_Model.deques s) [] /\
         subseq (column i (returned tr)) gone).
Proof.
  intros Hn H0 Hq HW. destruct (approx_run_t stamp c h Hn H0 Hq HW) as (s & tr & E1 & _ & _ & E2 & E3 & E4).
  exists s, tr. auto.
Qed.

(** ApproximateEpsilonTime: a call left by an exception has made the first of the callback calls it
    would have made; going on from the state left behind makes the others, beginning with the one
    that threw, and leads to the same state.  A call in which nothing is thrown is as usual. *)
Theorem C87_eps_resumes {E} (stamp : E -> Z) n q eps th (s s' s2 : Eps_Model.state E) x o b o2 :
  eps_add_t stamp n q eps th s x = Ok (s', o, b) -> Eps_Model.add stamp n q eps s x = Ok (s2, o2) ->
  if b then exists X o1 rest fuel, o = o1 ++ [X] /\ o2 = o1 ++ X :: rest /\
              Eps_Model.process stamp n eps fuel s' [] = Ok (s2, X :: rest)
  else s' = s2 /\ o = o2.
Proof. apply eps_add_resume. Qed.

(** ... and the set whose callback threw is still held, as the oldest messages. *)
Theorem C87_eps_keeps {E} (stamp : E -> Z) n q eps h th x s tr s' o :
  (forall e, stamp e <= int64_max) -> 0 <= eps -> (0 < n)%nat -> Eps_Spec.well_indexed n (calls_of h) -> (fst x < n)%nat ->
  run_t (eps_add_t stamp n q eps) (Eps_Model.init n) h = Ok (s, tr) ->
  eps_add_t stamp n q eps th s x = Ok (s', o, true) ->
  exists o1 X, o = o1 ++ [X] /\ forall i, nth_error X i = hd_error (nth i (Eps_Model.events s') []).
Proof.
  intros H1 H2 Hn HW Hx Hr Hs. destruct (eps_run_t stamp n q eps H1 H2 h Hn HW) as (s0 & tr0 & E1 & HI & _).
  rewrite Hr in E1. injection E1 as <- <-. destruct x as [i e]. cbn [fst] in Hx.
  destruct (eps_add_ok stamp n q eps H1 H2 th s i e Hx HI) as (s1 & o1 & b1 & E1 & [S1 S2 S3 S4 S5 S6]).
  rewrite Hs in E1. injection E1 as <- <- <-. exists (removelast o), (last o []). split; [|intros j; now apply S6].
  apply app_removelast_last. auto.
Qed.

(** ApproximateTime: likewise, the calls made are the first of those the call would have made, and
    a call in which nothing is thrown is as usual. *)
Theorem C87_approx_cut_short {E} (stamp : E -> Z) c th (s s' s2 : Approx_Model.state E) x o b o2 :
  approx_add_t stamp c th s x = Ok (s', o, b) -> Approx_Model.add stamp c s x = Ok (s2, o2) ->
  (if b then exists rest, o2 = o ++ rest else o = o2) /\ (b = false -> s' = s2).
Proof. intros H1 H2. exact (approx_cut stamp c th s s' s2 x o b o2 H1 H2). Qed.

(** ... and the set whose callback threw is still held, as the oldest messages. *)
Theorem C87_approx_keeps {E} (stamp : E -> Z) c h th x s tr s' o :
  (0 < Approx_Model.n c)%nat -> 0 <= Approx_Model.scale c 0 -> (0 < Approx_Model.queue_size c)%nat ->
  Approx_Spec.well_indexed (Approx_Model.n c) (calls_of h) -> (fst x < Approx_Model.n c)%nat ->
  run_t (approx_add_t stamp c) (Approx_Model.init c) h = Ok (s, tr) ->
  approx_add_t stamp c th s x = Ok (s', o, true) ->
  exists o1 X, o = o1 ++ [X] /\ forall i, (i < Approx_Model.n c)%nat ->
    nth_error X i = hd_error (nth i (Approx_Model.past s') [] ++ nth i (Approx_Model.deques s') []).
Proof.
  intros Hn H0 Hq HW Hx Hr Hs. destruct (approx_run_t stamp c h Hn H0 Hq HW) as (s0 & tr0 & E1 & HWF & HT & _).
  rewrite Hr in E1. injection E1 as <- <-. destruct x as [i e]. cbn [fst] in Hx.
  destruct (Throw_Approx.add_t_ok stamp c th i e s Hn H0 Hq HWF HT Hx) as (s1 & o1 & b1 & E1 & [D1 D2 D3 D4 D5 D6 D7]).
  rewrite Hs in E1. injection E1 as <- <- <-. exists (removelast o), (last o []). split; [|intros j Hj; now apply D7].
  apply app_removelast_last. auto.
Qed.

(** InputAligner and ExactTime: likewise. *)
Theorem C87_aligner_cut_short {E} (stamp : E -> Z) timeout th (s s' s2 : Aligner_Model.state E) x o b o2 :
  aligner_step_t stamp timeout th s x = Ok (s', o, b) -> Aligner_Model.step stamp timeout s x = Ok (s2, o2) ->
  if b then exists rest, o2 = o ++ rest else o = o2.
Proof. intros H1 H2. exact (aligner_cut stamp timeout th s s' s2 x o b o2 H1 H2). Qed.

Theorem C87_exact_cut_short {E} (stamp : E -> Z) n q th (s s' : Exact_Model.state E) x o b :
  exact_add_t stamp n q th s x = Ok (s', o, b) ->
  let o2 := snd (Exact_Model.add stamp n q s x) in
  if b then exists rest, o2 = o ++ rest else o = o2.
Proof. intros H1. exact (exact_cut stamp n q th s s' x o b H1). Qed.

(** * C88: exceptions make no difference *)

(** Cache and LatestTime call the callbacks last: exceptions make no difference at all. *)
Theorem C88_cache_unaffected {E} (stamp : E -> time) s h :
  exists tr, run_t (cache_step_t stamp) s h = Ok (fst (Cache_Model.run stamp s (calls_of h)), tr) /\
    begun tr = snd (Cache_Model.run stamp s (calls_of h)).
Proof. apply cache_same. Qed.

Theorem C88_latest_unaffected {E D} (f : Latest_Model.fops D) n default (s : Latest_Model.state E D) h :
  match Latest_Model.run f n default s (calls_of h) with
  | Ok (s', os) => exists tr, run_t (latest_step_t f n default) s h = Ok (s', tr) /\ begun tr = os
  | Err e => run_t (latest_step_t f n default) s h = Err e
  end.
Proof. apply latest_same. Qed.

(** Messages of the examples: a stamp and a number. *)
Notation msg := (Z * nat)%type.
Definition tstamp (m : msg) : time := mkTime (fst m) SystemClock.

(** TimeSequencer: refuted.  The messages after the one whose callback throws are lost: they are
    neither passed on nor held, although the queue has room for everything (size 0: unlimited). *)
Theorem C88_sequencer_loses_refuted :
  exists (h : list (Seq_Model.op msg * oracle)) s tr s' outs m,
    run_t (seq_step_t tstamp 0 0) Seq_Model.init h = Ok (s, tr) /\
    Seq_Model.run tstamp 0 0 Seq_Model.init (calls_of h) = Ok (s', outs) /\
    In m outs /\ ~ In m (begun tr) /\ ~ In m (Seq_Model.messages s).
Proof.
  set (h := [(Seq_Model.Add (1, 0%nat), never); (Seq_Model.Add (2, 0%nat), never);
             (Seq_Model.Tick (fun _ => 10), only 0); (Seq_Model.Tick (fun _ => 20), never)]).
  exists h. do 4 eexists. exists (2, 0%nat).
  split; [reflexivity|]. split; [reflexivity|]. split; [cbn; auto|]. split; [|cbn; auto].
  cbn. intros [H|[]]. congruence.
Qed.

(** InputAligner: refuted.  The message whose callback threw is passed on again. *)
Theorem C88_aligner_redelivers_refuted :
  exists (h : list (Aligner_Model.op msg * oracle)) s tr,
    run_t (aligner_step_t fst 0) (Aligner_Model.init 1) h = Ok (s, tr) /\
    Aligner_Spec.adds (calls_of h) = [(0%nat, (5, 0%nat))] /\
    begun tr = [(0%nat, (5, 0%nat)); (0%nat, (5, 0%nat))].
Proof.
  exists [(Aligner_Model.Add 0 (5, 0%nat), never); (Aligner_Model.Dispatch, only 0); (Aligner_Model.Dispatch, never)].
  do 2 eexists. split; [reflexivity|]. split; reflexivity.
Qed.

(** ExactTime: refuted.  After an exception the set is still stored, so that the next message of
    that stamp makes a second set with the messages of the first. *)
Theorem C88_exact_redelivers_refuted :
  exists (h : list ((nat * msg) * oracle)) s tr,
    run_t (exact_add_t fst 2 0) Exact_Model.init h = Ok (s, tr) /\
    calls_of h = [(0%nat, (5, 0%nat)); (1%nat, (5, 1%nat)); (0%nat, (5, 2%nat))] /\
    Exact_Spec.signals (begun tr) = [[(5, 0%nat); (5, 1%nat)]; [(5, 2%nat); (5, 1%nat)]].
Proof.
  exists [((0%nat, (5, 0%nat)), never); ((1%nat, (5, 1%nat)), only 0); ((0%nat, (5, 2%nat)), never)].
  do 2 eexists. split; [reflexivity|]. split; reflexivity.
Qed.

(** ExactTime: refuted.  If the drop callback throws, nothing is dropped: the number of stored
    sets exceeds the queue size without bound, and the same set is reported again and again. *)
Lemma exact_grows (k : nat) : forall (m : list (Z * list (option msg))) last (z : Z) h,
  (forall kt, In kt m -> fst kt < z) -> (1 <= length m)%nat ->
  h = map (fun j => ((0%nat, (z + Z.of_nat j, 0%nat)), always)) (seq 0 k) ->
  exists s tr, run_t (exact_add_t fst 2 1) (Exact_Model.mkState m last) h = Ok (s, tr) /\
    length (Exact_Model.tuples s) = (length m + k)%nat /\
    begun tr = repeat (Exact_Model.Drop (snd (hd (0, []) m))) k.
Proof.
  induction k as [|k IH]; intros m last z h Hm Hl ->.
  - exists (Exact_Model.mkState m last), []. split; [reflexivity|]. cbn [Exact_Model.tuples]. split; [symmetry; apply Nat.add_0_r|reflexivity].
  - cbn [seq map run_t]. rewrite Z.add_0_r.
    assert (Hput : Exact_Model.put 2 z 0 (z, 0%nat) m = (m ++ [(z, [Some (z, 0%nat); None])], [Some (z, 0%nat); None])).
    { clear IH Hl. induction m as [|[k0 t0] m IHm]; [reflexivity|]. cbn [Exact_Model.put].
      assert (k0 < z) by (apply (Hm (k0, t0)); cbn; auto).
      destruct (Z.ltb_spec z k0); [lia|]. destruct (Z.eqb_spec z k0); [lia|].
      rewrite IHm; [reflexivity|]. intros kt Hk. apply Hm. cbn; auto. }
    unfold exact_add_t at 1. cbn [fst Exact_Model.tuples]. rewrite Hput. cbn [bind].
    unfold checkTuple_t. cbn [Exact_Model.full].
    unfold trim_t. cbn [Exact_Model.tuples Exact_Model.last_signal_time]. rewrite app_length. cbn [length].
    destruct m as [|[k0 t0] m]; [cbn in Hl; lia|].
    replace ((0 <? 1)%nat && (1 <? length ((k0, t0) :: m) + 1)%nat) with true.
    2: { cbn [length]. symmetry. apply andb_true_intro. split; apply Nat.ltb_lt; lia. }
    replace (length ((k0, t0) :: m) + 1 - 1)%nat with (S (length m)) by (cbn [length]; lia).
    unfold drop_range_t. cbn [app firstn Exact_Model.drops map signal_all]. cbn [always].
    change (always 0%nat) with true. cbn iota beta.
    set (m' := (k0, t0) :: m ++ [(z, [Some (z, 0%nat); None])]).
    change ((k0, t0) :: firstn (length m) (m ++ [(z, [Some (z, 0%nat); None])]) ++ skipn (S (length m)) m')
      with (firstn (S (length m)) m' ++ skipn (S (length m)) m').
    rewrite (firstn_skipn (S (length m)) m').
    destruct (IH m' last (z + 1) (map (fun j => ((0%nat, (z + 1 + Z.of_nat j, 0%nat)), always)) (seq 0 k))) as (s & tr & E1 & E2 & E3).
    { intros kt [<-|Hk]; cbn; [specialize (Hm (k0, t0) (or_introl eq_refl)); cbn in Hm; lia|].
      apply in_app_or in Hk as [Hk|[<-|[]]]; [specialize (Hm kt (or_intror Hk)); lia|cbn; lia]. }
    { cbn; lia. }
    { reflexivity. }
    replace (map (fun j => ((0%nat, (z + Z.of_nat j, 0%nat)), always)) (seq 1 k))
      with (map (fun j => ((0%nat, (z + 1 + Z.of_nat j, 0%nat)), always)) (seq 0 k)).
    2: { rewrite <- seq_shift, map_map. apply map_ext. intros j. do 3 f_equal. lia. }
    match goal with |- context [run_t ?f ?a ?b] => change (run_t f a b) with (run_t f (Exact_Model.mkState m' last) b) end.
    rewrite E1. cbn [bind]. eexists. eexists. split; [reflexivity|]. split.
    + rewrite E2. unfold m'. cbn [length]. rewrite app_length. cbn [length]. lia.
    + unfold begun in *. cbn [flat_map fst]. rewrite E3. reflexivity.
Qed.

Theorem C88_exact_unbounded_refuted (k : nat) :
  exists (h : list ((nat * msg) * oracle)) s tr d,
    run_t (exact_add_t fst 2 1) Exact_Model.init h = Ok (s, tr) /\
    length (Exact_Model.tuples s) = S k /\ begun tr = repeat (Exact_Model.Drop d) k.
Proof.
  exists (((0%nat, (0, 0%nat)), never) :: map (fun j => ((0%nat, (1 + Z.of_nat j, 0%nat)), always)) (seq 0 k)).
  destruct (exact_grows k [(0, [Some (0, 0%nat); None])] 0 1 (map (fun j => ((0%nat, (1 + Z.of_nat j, 0%nat)), always)) (seq 0 k))) as (s & tr & E1 & E2 & E3);
    [intros kt [<-|[]]; cbn; lia|cbn; lia|reflexivity|].
  exists s, (([], false) :: tr), [Some (0, 0%nat); None]. split.
  - cbn [run_t]. change (exact_add_t fst 2 1 never Exact_Model.init (0%nat, (0, 0%nat))) with
      (Ok (Exact_Model.mkState [(0, [Some (0, 0%nat); None])] 0, @nil (Exact_Model.out msg), false)). cbn [bind].
    rewrite E1. reflexivity.
  - split; [rewrite E2; reflexivity|]. cbn. exact E3.
Qed.

(** ApproximateEpsilonTime: refuted.  A set whose callback throws is passed on again with every
    message that arrives, and the queues grow beyond the queue size without bound. *)
Lemma eps_grows (k : nat) : forall q (xs : list msg),
  run_t (eps_add_t fst 2 q 0) (Eps_Model.mkState 2 [[(5, 0%nat)]; (5, 1%nat) :: xs]) (repeat ((1%nat, (5, 1%nat)), always) k) =
  Ok (Eps_Model.mkState 2 [[(5, 0%nat)]; (5, 1%nat) :: xs ++ repeat (5, 1%nat) k], repeat ([[(5, 0%nat); (5, 1%nat)]], true) k).
Proof.
  induction k as [|k IH]; intros q xs; cbn [repeat run_t]; [now rewrite app_nil_r|].
  set (st := Eps_Model.mkState 2 [[(5, 0%nat)]; (5, 1%nat) :: xs]).
  assert (E1 : eps_add_t fst 2 q 0 always st (1%nat, (5, 1%nat)) =
               Ok (Eps_Model.mkState 2 [[(5, 0%nat)]; (5, 1%nat) :: xs ++ [(5, 1%nat)]], [[(5, 0%nat); (5, 1%nat)]], true)).
  { reflexivity. }
  rewrite E1. cbn [bind]. rewrite IH. cbn [bind]. rewrite <- app_assoc. reflexivity.
Qed.

Theorem C88_eps_refuted (q k : nat) :
  (0 < q)%nat ->
  exists (h : list ((nat * msg) * oracle)) s tr,
    run_t (eps_add_t fst 2 q 0) (Eps_Model.init 2) h = Ok (s, tr) /\
    length (nth 1 (Eps_Model.events s) []) = S k /\ begun tr = repeat [(5, 0%nat); (5, 1%nat)] (S k).
Proof.
  intros Hq.
  exists (((0%nat, (5, 0%nat)), never) :: ((1%nat, (5, 1%nat)), always) :: repeat ((1%nat, (5, 1%nat)), always) k).
  eexists. eexists. split.
  - cbn [run_t].
    assert (E0 : eps_add_t fst 2 q 0 never (Eps_Model.init 2) (0%nat, (5, 0%nat)) =
                 Ok (Eps_Model.mkState 1 [[(5, 0%nat)]; []], [], false)).
    { destruct q; [lia|reflexivity]. }
    rewrite E0. cbn [bind].
    change (eps_add_t fst 2 q 0 always (Eps_Model.mkState 1 [[(5, 0%nat)]; []]) (1%nat, (5, 1%nat))) with
      (Ok (Eps_Model.mkState 2 [[(5, 0%nat)]; [(5, 1%nat)]], [[(5, 0%nat); (5, 1%nat)]], true)).
    cbn [bind]. rewrite eps_grows. cbn [bind]. reflexivity.
  - split.
    + cbn. now rewrite repeat_length.
    + unfold begun. cbn [flat_map fst app]. cbn [repeat]. f_equal. induction k; cbn; auto. now f_equal.
Qed.

(** ApproximateTime: refuted.  The same set is passed on again with every message, and the
    messages held exceed the queue size without bound. *)
Definition acfg (q : nat) : Approx_Model.cfg := Approx_Model.mkCfg 2 q 1000 (fun d => d) (fun _ => 0).
Definition astate (xs : list msg) : Approx_Model.state msg :=
  Approx_Model.mkState [[(5, 0%nat)]; []] 1 [[(0, 0%nat)]; (1, 1%nat) :: xs]
    (Some [(0, 0%nat); (1, 1%nat)]) 0 1 (Some 1%nat) 1 [false; false] [false; false].

Lemma approx_grows (k : nat) : forall q (xs : list msg),
  run_t (approx_add_t fst (acfg q)) (astate xs) (repeat ((1%nat, (4, 1%nat)), always) k) =
  Ok (astate (xs ++ repeat (4, 1%nat) k), repeat ([[(0, 0%nat); (1, 1%nat)]], true) k).
Proof.
  induction k as [|k IH]; intros q xs; cbn [repeat run_t]; [now rewrite app_nil_r|].
  assert (E1 : approx_add_t fst (acfg q) always (astate xs) (1%nat, (4, 1%nat)) =
               Ok (astate (xs ++ [(4, 1%nat)]), [[(0, 0%nat); (1, 1%nat)]], true)).
  { reflexivity. }
  rewrite E1. cbn [bind]. rewrite IH. cbn [bind]. rewrite <- app_assoc. reflexivity.
Qed.

Theorem C88_approx_unbounded_refuted (q k : nat) :
  (2 <= q)%nat ->
  exists (h : list ((nat * msg) * oracle)) s tr,
    run_t (approx_add_t fst (acfg q)) (Approx_Model.init (acfg q)) h = Ok (s, tr) /\
    length (nth 1 (Approx_Model.past s) []) = S k /\ begun tr = repeat [(0, 0%nat); (1, 1%nat)] (S k).
Proof.
  intros Hq. destruct q as [|[|q]]; [lia|lia|].
  exists (((0%nat, (0, 0%nat)), never) :: ((1%nat, (1, 1%nat)), never) :: ((0%nat, (5, 0%nat)), only 0) :: repeat ((1%nat, (4, 1%nat)), always) k).
  exists (astate (repeat (4, 1%nat) k)), (([], false) :: ([], false) :: ([[(0, 0%nat); (1, 1%nat)]], true) :: repeat ([[(0, 0%nat); (1, 1%nat)]], true) k).
  split.
  - pose proof (approx_grows k (S (S q)) []) as HG. cbn [app] in HG. cbn [run_t].
    set (s1 := Approx_Model.mkState [[(0, 0%nat)]; []] 1 [[]; []] None 0 0 None 0 [false; false] [false; false] : Approx_Model.state msg).
    set (s2 := Approx_Model.mkState [[]; [(1, 1%nat)]] 1 [[(0, 0%nat)]; []]
      (Some [(0, 0%nat); (1, 1%nat)]) 0 1 (Some 1%nat) 1 [false; false] [false; false] : Approx_Model.state msg).
    change (approx_add_t fst (acfg (S (S q))) never (Approx_Model.init (acfg (S (S q)))) (0%nat, (0, 0%nat))) with (Ok (s1, @nil (list msg), false)).
    cbn [bind].
    change (approx_add_t fst (acfg (S (S q))) never s1 (1%nat, (1, 1%nat))) with (Ok (s2, @nil (list msg), false)).
    cbn [bind].
    change (approx_add_t fst (acfg (S (S q))) (only 0) s2 (0%nat, (5, 0%nat))) with (Ok (astate [], [[(0, 0%nat); (1, 1%nat)]], true)).
    cbn [bind]. rewrite HG. reflexivity.
  - split; [cbn; now rewrite repeat_length|]. unfold begun. cbn [flat_map fst app]. cbn [repeat]. f_equal. induction k; cbn; auto. now f_equal.
Qed.

(** ApproximateTime: refuted.  One exception can stop the policy: for every queue size, after one
    exception no callback is called for any further messages, until some input holds more than
    the queue size. *)
Definition stalled (d0 d1 : list msg) (w : list bool) : Approx_Model.state msg :=
  Approx_Model.mkState [(5, 0%nat) :: d0; (2, 1%nat) :: d1] 2 [[(0, 0%nat)]; [(1, 1%nat)]]
    (Some [(0, 0%nat); (1, 1%nat)]) 0 1 (Some 1%nat) 1 [false; false] w.

Lemma stalled_add q i m th d0 d1 w :
  (i < 2)%nat -> (i = 0%nat -> length d0 + 3 <= q)%nat -> (i = 1%nat -> length d1 + 3 <= q)%nat ->
  exists w', approx_add_t fst (acfg q) th (stalled d0 d1 w) (i, m) =
    Ok (stalled (d0 ++ if Nat.eqb 0 i then [m] else []) (d1 ++ if Nat.eqb 1 i then [m] else []) w', [], false).
Proof.
  intros Hi H0 H1. destruct i as [|[|i]]; [| |lia]; cbn [Nat.eqb]; rewrite app_nil_r.
  - unfold approx_add_t. cbn [fst snd]. unfold approx_add_process_t.
    cbn [stalled Approx_Model.deques nth_error Approx_Model.is_nil]. cbv zeta. cbn [bind app upd].
    set (s1 := Approx_Model.set_queues _ _ _ _).
    assert (Hck : exists w', Approx_Model.check_inter_message_bound fst (acfg q) 0 s1 = stalled (d0 ++ [m]) d1 w').
    { unfold Approx_Model.check_inter_message_bound. destruct (nth 0 _ false); [exists w; reflexivity|].
      destruct (Approx_Model.bound_violated _ _ _ _ _); eexists; reflexivity. }
    destruct Hck as (w' & ->). exists w'. unfold approx_add_overflow_t. cbn [stalled Approx_Model.deques Approx_Model.past nth length].
    rewrite app_length. cbn [length]. cbn [acfg Approx_Model.queue_size].
    destruct (Nat.ltb_spec q (S (length d0 + 1) + 1)); [lia|]. reflexivity.
  - unfold approx_add_t. cbn [fst snd]. unfold approx_add_process_t.
    cbn [stalled Approx_Model.deques nth_error Approx_Model.is_nil]. cbv zeta. cbn [bind app upd].
    set (s1 := Approx_Model.set_queues _ _ _ _).
    assert (Hck : exists w', Approx_Model.check_inter_message_bound fst (acfg q) 1 s1 = stalled d0 (d1 ++ [m]) w').
    { unfold Approx_Model.check_inter_message_bound. destruct (nth 1 _ false); [exists w; reflexivity|].
      destruct (Approx_Model.bound_violated _ _ _ _ _); eexists; reflexivity. }
    destruct Hck as (w' & ->). exists w'. unfold approx_add_overflow_t. cbn [stalled Approx_Model.deques Approx_Model.past nth length].
    rewrite app_length. cbn [length]. cbn [acfg Approx_Model.queue_size].
    destruct (Nat.ltb_spec q (S (length d1 + 1) + 1)); [lia|]. reflexivity.
Qed.

Lemma stalled_run q : forall h d0 d1 w,
  (forall i m, In (i, m) (calls_of h) -> (i < 2)%nat) ->
  (length d0 + length (stream 0 (calls_of h)) + 2 <= q)%nat ->
  (length d1 + length (stream 1 (calls_of h)) + 2 <= q)%nat ->
  exists s tr, run_t (approx_add_t fst (acfg q)) (stalled d0 d1 w) h = Ok (s, tr) /\ begun tr = [].
Proof.
  induction h as [|[[i m] th] h IH]; intros d0 d1 w Hi H0 H1.
  - do 2 eexists. split; reflexivity.
  - cbn [calls_of map fst] in *. fold (calls_of h) in *. rewrite stream_cons in H0. rewrite stream_cons in H1.
    assert (Hlt : (i < 2)%nat) by (apply (Hi i m); cbn; auto).
    destruct (stalled_add q i m th d0 d1 w Hlt) as (w' & E1);
      [intros ->; cbn [Nat.eqb length] in H0; lia|intros ->; cbn [Nat.eqb length] in H1; lia|].
    destruct (IH (d0 ++ if Nat.eqb 0 i then [m] else []) (d1 ++ if Nat.eqb 1 i then [m] else []) w') as (s & tr & E2 & E3).
    { intros j x Hx. apply (Hi j x). cbn; auto. }
    { rewrite app_length, (Nat.eqb_sym 0 i). destruct (Nat.eqb i 0); cbn [length] in *; lia. }
    { rewrite app_length, (Nat.eqb_sym 1 i). destruct (Nat.eqb i 1); cbn [length] in *; lia. }
    cbn [run_t]. rewrite E1. cbn [bind]. rewrite E2. cbn [bind]. do 2 eexists. split; [reflexivity|exact E3].
Qed.

Definition stall_history : list ((nat * msg) * oracle) :=
  [((0%nat, (0, 0%nat)), never); ((1%nat, (1, 1%nat)), never); ((1%nat, (2, 1%nat)), never); ((0%nat, (5, 0%nat)), only 0)].

Theorem C88_approx_stalls_refuted (q : nat) (h : list ((nat * msg) * oracle)) :
  (2 <= q)%nat -> (forall i m, In (i, m) (calls_of h) -> (i < 2)%nat) ->
  (forall i, (i < 2)%nat -> length (stream i (calls_of h)) + 2 <= q)%nat ->
  exists s tr, run_t (approx_add_t fst (acfg q)) (Approx_Model.init (acfg q)) (stall_history ++ h) = Ok (s, tr) /\
    begun tr = [[(0, 0%nat); (1, 1%nat)]].
Proof.
  intros Hq Hi Hl. destruct q as [|[|q]]; [lia|lia|].
  destruct (stalled_run (S (S q)) h [] [] [false; false] Hi) as (s & tr & E1 & E2); [apply Hl; lia|apply Hl; lia|].
  exists s, (([], false) :: ([], false) :: ([], false) :: ([[(0, 0%nat); (1, 1%nat)]], true) :: tr). split.
  - unfold stall_history. cbn [app run_t].
    set (s1 := Approx_Model.mkState [[(0, 0%nat)]; []] 1 [[]; []] None 0 0 None 0 [false; false] [false; false] : Approx_Model.state msg).
    set (s2 := Approx_Model.mkState [[]; [(1, 1%nat)]] 1 [[(0, 0%nat)]; []]
      (Some [(0, 0%nat); (1, 1%nat)]) 0 1 (Some 1%nat) 1 [false; false] [false; false] : Approx_Model.state msg).
    set (s3 := Approx_Model.mkState [[]; [(1, 1%nat); (2, 1%nat)]] 1 [[(0, 0%nat)]; []]
      (Some [(0, 0%nat); (1, 1%nat)]) 0 1 (Some 1%nat) 1 [false; false] [false; false] : Approx_Model.state msg).
    change (approx_add_t fst (acfg (S (S q))) never (Approx_Model.init (acfg (S (S q)))) (0%nat, (0, 0%nat))) with (Ok (s1, @nil (list msg), false)).
    cbn [bind].
    change (approx_add_t fst (acfg (S (S q))) never s1 (1%nat, (1, 1%nat))) with (Ok (s2, @nil (list msg), false)).
    cbn [bind].
    change (approx_add_t fst (acfg (S (S q))) never s2 (1%nat, (2, 1%nat))) with (Ok (s3, @nil (list msg), false)).
    cbn [bind].
    change (approx_add_t fst (acfg (S (S q))) (only 0) s3 (0%nat, (5, 0%nat))) with (Ok (stalled [] [] [false; false], [[(0, 0%nat); (1, 1%nat)]], true)).
    cbn [bind]. rewrite E1. reflexivity.
  - unfold begun in *. cbn [flat_map fst app]. now rewrite E2.
Qed.

(** Without the exception the policy goes on: the further messages make three more sets. *)
Example C88_approx_stalls_nonvacuous :
  let h := [((1%nat, (10, 1%nat)), never); ((0%nat, (10, 0%nat)), never); ((1%nat, (20, 1%nat)), never); ((0%nat, (20, 0%nat)), never)] in
  (exists s, Approx_Model.run fst (acfg 10) (Approx_Model.init (acfg 10)) (calls_of (stall_history ++ h)) =
     Ok (s, [[(0, 0%nat); (1, 1%nat)]; [(5, 0%nat); (2, 1%nat)]; [(10, 0%nat); (10, 1%nat)]; [(20, 0%nat); (20, 1%nat)]])) /\
  (forall i m, In (i, m) (calls_of h) -> (i < 2)%nat) /\
  (forall i, (i < 2)%nat -> length (stream i (calls_of h)) + 2 <= 10)%nat.
Proof.
  split; [eexists; vm_compute; reflexivity|]. split.
  - intros i m H; cbn in H; decompose [or] H; try contradiction;
      match goal with H : _ = _ |- _ => injection H; intros; subst; lia end.
  - intros [|[|i]] Hi; [cbn; lia|cbn; lia|lia].
Qed.

(** * Non-vacuity *)

(** An aligner with two inputs: the callback throws on its first call, then the remaining
    messages and, first, the same one are passed on; a late message is dropped. *)
Example C87_aligner_nonvacuous :
  let h := [(Aligner_Model.Add 0 (5, 0%nat), never); (Aligner_Model.Add 1 (6, 1%nat), never); (Aligner_Model.Add 0 (7, 2%nat), never);
            (Aligner_Model.Dispatch, only 0); (Aligner_Model.Add 1 (3, 3%nat), never); (Aligner_Model.Dispatch, only 1)] in
  Aligner_Spec.well_indexed 2 (calls_of h) /\
  exists s tr, run_t (aligner_step_t (fun x => Z.min (fst x) (int64_max - 1)) 100) (Aligner_Model.init 2) h = Ok (s, tr) /\
    begun tr = [(0%nat, (5, 0%nat)); (0%nat, (5, 0%nat)); (1%nat, (6, 1%nat))] /\
    returned tr = [(0%nat, (5, 0%nat))] /\
    map Aligner_Model.evs (Aligner_Model.queues s) = [[(7, 2%nat)]; [(6, 1%nat)]].
Proof.
  cbv zeta. split.
  - split; intros i x H; cbn in H; decompose [or] H; try discriminate; try contradiction;
      match goal with H : _ = _ |- _ => injection H; intros; subst; lia end.
  - do 2 eexists. split; [vm_compute; reflexivity|]. repeat split.
Qed.

(** A synchronizer of two inputs with queue size 1: the drop callback throws, then the set
    callback. *)
Example C87_exact_nonvacuous :
  let h := [((0%nat, (1, 0%nat)), never); ((0%nat, (2, 0%nat)), only 0); ((1%nat, (2, 1%nat)), only 0); ((1%nat, (1, 1%nat)), only 1); ((0%nat, (3, 0%nat)), never)] in
  Exact_Spec.well_indexed 2 (calls_of h) /\
  exists s tr, run_t (exact_add_t fst 2 1) Exact_Model.init h = Ok (s, tr) /\
    Exact_Spec.signals (begun tr) = [[(2, 0%nat); (2, 1%nat)]; [(1, 0%nat); (1, 1%nat)]] /\
    length (Exact_Spec.dropped (returned tr)) = 1%nat /\ length (Exact_Model.tuples s) = 1%nat.
Proof.
  cbv zeta. split.
  - intros i x H; cbn in H; decompose [or] H; try discriminate; try contradiction;
      match goal with H : _ = _ |- _ => injection H; intros; subst; lia end.
  - do 2 eexists. split; [vm_compute; reflexivity|]. repeat split.
Qed.

Example C87_eps_nonvacuous :
  let h := [((0%nat, (1, 0%nat)), never); ((1%nat, (2, 1%nat)), only 0); ((0%nat, (3, 0%nat)), only 0); ((1%nat, (3, 1%nat)), only 1)] in
  Eps_Spec.well_indexed 2 (calls_of h) /\
  exists s tr, run_t (eps_add_t (fun x => Z.min (fst x) int64_max) 2 5 1) (Eps_Model.init 2) h = Ok (s, tr) /\
    begun tr = [[(1, 0%nat); (2, 1%nat)]; [(1, 0%nat); (2, 1%nat)]; [(1, 0%nat); (2, 1%nat)]; [(3, 0%nat); (3, 1%nat)]] /\
    returned tr = [[(1, 0%nat); (2, 1%nat)]] /\ Eps_Model.events s = [[(3, 0%nat)]; [(3, 1%nat)]].
Proof.
  cbv zeta. split.
  - intros i x H; cbn in H; decompose [or] H; try discriminate; try contradiction;
      match goal with H : _ = _ |- _ => injection H; intros; subst; lia end.
  - do 2 eexists. split; [vm_compute; reflexivity|]. repeat split.
Qed.

(** The stalled policy resumes when a queue overflows. *)
Example C87_approx_nonvacuous :
  let h := stall_history ++ [((1%nat, (10, 1%nat)), never); ((0%nat, (10, 0%nat)), never); ((1%nat, (20, 1%nat)), never); ((0%nat, (20, 0%nat)), never)] in
  Approx_Spec.well_indexed 2 (calls_of h) /\ 0 <= Approx_Model.scale (acfg 3) 0 /\
  exists s tr, run_t (approx_add_t fst (acfg 3)) (Approx_Model.init (acfg 3)) h = Ok (s, tr) /\
    begun tr = [[(0, 0%nat); (1, 1%nat)]; [(5, 0%nat); (2, 1%nat)]; [(10, 0%nat); (10, 1%nat)]; [(20, 0%nat); (20, 1%nat)]].
Proof.
  cbv zeta. split; [|split; [cbn; lia|]].
  - intros i x H; cbn in H; decompose [or] H; try discriminate; try contradiction;
      match goal with H : _ = _ |- _ => injection H; intros; subst; cbn; lia end.
  - do 2 eexists. split; [vm_compute; reflexivity|]. reflexivity.
Qed.

Example C87_sequencer_nonvacuous :
  exists s tr, run_t (seq_step_t tstamp 0 0) Seq_Model.init
    [(Seq_Model.Add (1, 0%nat), never); (Seq_Model.Add (2, 0%nat), never); (Seq_Model.Add (3, 0%nat), never);
     (Seq_Model.Tick (fun _ => 10), only 1); (Seq_Model.Add (12, 0%nat), never); (Seq_Model.Tick (fun _ => 20), never)] = Ok (s, tr) /\
    begun tr = [(1, 0%nat); (2, 0%nat); (12, 0%nat)] /\ returned tr = [(1, 0%nat); (12, 0%nat)].
Proof. do 2 eexists. split; [vm_compute; reflexivity|]. split; reflexivity. Qed.

Print Assumptions C87_aligner_no_exceptions.
Print Assumptions C87_eps_no_exceptions.
Print Assumptions C87_approx_no_exceptions.
Print Assumptions C87_sequencer_no_exceptions.
Print Assumptions C87_exact_no_exceptions.
Print Assumptions C87_sequencer_sound.
Print Assumptions C87_aligner_sound.
Print Assumptions C87_aligner_recovers.
Print Assumptions C87_exact_sound.
Print Assumptions C87_eps_sound.
Print Assumptions C87_approx_sound.
Print Assumptions C87_eps_resumes.
Print Assumptions C87_eps_keeps.
Print Assumptions C87_approx_cut_short.
Print Assumptions C87_approx_keeps.
Print Assumptions C87_aligner_cut_short.
Print Assumptions C87_exact_cut_short.
Print Assumptions C88_cache_unaffected.
Print Assumptions C88_latest_unaffected.
Print Assumptions C88_sequencer_loses_refuted.
Print Assumptions C88_aligner_redelivers_refuted.
Print Assumptions C88_exact_redelivers_refuted.
Print Assumptions C88_exact_unbounded_refuted.
Print Assumptions C88_eps_refuted.
Print Assumptions C88_approx_unbounded_refuted.
Print Assumptions C88_approx_stalls_refuted.
