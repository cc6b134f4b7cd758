(** Properties C58-C59 and C80-C81: concurrent use.  [exec sched (start p0 programs) = (c, acq)]: the
    threads run according to the schedule [sched] (the list of the threads that make a step; any list);
    [c] is what they reach, [acq] tells which thread took which mutex, in this order. *)
From Coq Require Import List Arith ZArith Bool Lia Permutation.
From Verif Require Import Base RclTime Trace Sched_Model Sched_Spec Sched_Proofs Sched_Runs.
From Verif Require Exact_Model Exact_Spec Exact_Props Approx_Model Eps_Model Latest_Model Aligner_Model Cache_Model Cache_Spec Cache_Props Seq_Model Seq_Spec Seq_Props.
Import ListNotations.

(** * C58: methods that hold the mutex of their object *)
Section Locked.
Context {P R Op : Type}.
(** [apply p o]: what the call [o] does alone, [body o]: how it does that, in any number of steps *)
Variables (body : Op -> sect P R) (apply : P -> Op -> P).
Hypothesis alone : forall o p, fst (sect_run (body o) p) = apply p o.
Variables (p0 : P) (calls : list (list Op)).
Notation program := (start (fun _ => p0) (map (locked_calls body) calls)).

(** C58: when all threads have finished, the object is in the state that the calls would have left if
    made one after the other, in an order which keeps the order of each thread: the order in which the
    threads took the mutex. *)
Theorem C58_equivalent_to_sequential sched c acq :
  exec sched program = (c, acq) -> finished c ->
  exists order, interleaving calls order /\ map fst order = takers 0 acq /\
    part c 0 = fold_left apply (map snd order) p0.
Proof. intros E F. exact (locked_finished body apply alone (fun _ => p0) calls sched c acq E F). Qed.

(** C58: the same before they have finished, at every moment when no thread is inside of a call. *)
Theorem C58_equivalent_at_every_moment sched c acq :
  exec sched program = (c, acq) -> idle c ->
  exists order, begun calls order /\ map fst order = takers 0 acq /\
    part c 0 = fold_left apply (map snd order) p0 /\
    forall tid ops, nth_error calls tid = Some ops -> exists r, ops = calls_of tid order ++ r /\
      nth_error (threads c) tid = Some (Out (locked_calls body r)).
Proof. intros E F. destruct (locked_exec body apply alone (fun _ => p0) calls sched c acq E F) as (order & Ho & Ht & Hp & Hb & Hc). exists order. rewrite Ht. auto. Qed.

Lemma begun_prefix o1 o2 : begun calls (o1 ++ o2) -> begun calls o1.
Proof.
  intros (H & C). split; [intros x Hx; apply H; apply in_or_app; auto|]. intros tid ops E. destruct (C _ _ E) as (r & Er). rewrite calls_of_app, <- app_assoc in Er. eauto.
Qed.
Lemma begun_unique o1 : forall o2, begun calls o1 -> begun calls o2 -> map fst o1 = map fst o2 -> o1 = o2.
Proof.
  induction o1 as [|[t x] o1 IH] using rev_ind; intros o2 B1 B2 E; [destruct o2; [reflexivity|discriminate]|].
  destruct o2 as [|[t' y] o2 _] using rev_ind; [rewrite map_app in E; destruct (map fst o1); discriminate|].
  rewrite !map_app in E. apply app_inj_tail in E. destruct E as (E & Et). cbn in Et. subst t'. assert (o1 = o2) as -> by (apply IH; eauto using begun_prefix).
  f_equal. f_equal. f_equal. destruct B1 as (H1 & C1). destruct B2 as (_ & C2). assert (Hlt : t < length calls) by (apply (H1 (t, x)); apply in_or_app; cbn; auto).
  apply nth_error_Some in Hlt. destruct (nth_error calls t) as [ops|] eqn:Eo; [|congruence]. destruct (C1 _ _ Eo) as (r1 & E1). destruct (C2 _ _ Eo) as (r2 & E2).
  rewrite calls_of_app, calls_of_one, Nat.eqb_refl, <- app_assoc in E1, E2. rewrite E1 in E2. apply app_inv_head in E2. now injection E2.
Qed.

(** C58: and the order agrees with real time: the calls that have returned when another one begins are
    before it.  Whatever happens later, what has been done stays a prefix. *)
Theorem C58_real_time s1 s2 c1 c2 acq1 acq2 :
  exec s1 program = (c1, acq1) -> idle c1 -> exec s2 c1 = (c2, acq2) -> idle c2 ->
  exists o1 o2, begun calls (o1 ++ o2) /\ part c1 0 = fold_left apply (map snd o1) p0 /\
    part c2 0 = fold_left apply (map snd (o1 ++ o2)) p0 /\
    map fst o1 = takers 0 acq1 /\ map fst o2 = takers 0 acq2.
Proof.
  intros E1 I1 E2 I2. assert (E : exec (s1 ++ s2) program = (c2, acq1 ++ acq2)) by (rewrite exec_app, E1; cbn [fst snd]; rewrite E2; reflexivity).
  destruct (C58_equivalent_at_every_moment _ _ _ E1 I1) as (o1 & B1 & T1 & P1 & _). destruct (C58_equivalent_at_every_moment _ _ _ E I2) as (o & B & T & Pp & _).
  assert (Et : takers 0 (acq1 ++ acq2) = takers 0 acq1 ++ takers 0 acq2) by (unfold takers; now rewrite filter_app, map_app).
  rewrite Et in T. set (n := length o1). assert (Hs : firstn n o ++ skipn n o = o) by apply firstn_skipn.
  assert (Hn : length (takers 0 acq1) = n) by (rewrite <- T1; apply map_length).
  assert (Tf : map fst (firstn n o) = takers 0 acq1) by (rewrite <- firstn_map, T, firstn_app, Hn, Nat.sub_diag, <- Hn, firstn_all; apply app_nil_r).
  assert (firstn n o = o1) as Ho. { apply begun_unique; [eapply begun_prefix; rewrite Hs; exact B|exact B1|congruence]. }
  rewrite Ho in Hs. exists o1, (skipn n o). rewrite Hs. do 4 (split; [assumption|]). rewrite <- skipn_map, T, skipn_app, Hn, Nat.sub_diag, <- Hn, skipn_all. reflexivity.
Qed.

(** C58: the threads never block each other for good: from every reachable state all can finish. *)
Theorem C58_can_finish sched c acq :
  exec sched program = (c, acq) -> exists more, finished (fst (exec more c)).
Proof.
  intros E. pose proof (sim_exec _ _ _ _ _ (sim_start (fun _ => p0) (map (locked_calls body) calls)) E) as S. destruct (can_finish _ _ S) as (s & H). exists s. intros t Ht. apply In_nth_error in Ht. destruct Ht as (tid & Ht). eauto.
Qed.
End Locked.

(** ** The filters of the library *)
(** a sequential run that may fail (UB, exception): once it has failed it stays so *)
Definition accumulate {S Op O} (step : S -> Op -> res (S * list O)) (p : res (S * list O)) (o : Op) : res (S * list O) :=
  do '(s, out) <- p; do '(s', o') <- step s o; Ok (s', out ++ o').
Lemma accumulate_run {S Op O} (step : S -> Op -> res (S * list O)) (run : S -> list Op -> res (S * list O)) :
  (forall s, run s [] = Ok (s, [])) -> (forall s o h, run s (o :: h) = do '(s1, o1) <- step s o; do '(s2, o2) <- run s1 h; Ok (s2, o1 ++ o2)) ->
  forall h s, fold_left (accumulate step) h (Ok (s, [])) = run s h.
Proof.
  intros Hn Hc. assert (Herr : forall h e, fold_left (accumulate step) h (Err e) = Err e) by (induction h; cbn; auto).
  assert (G : forall h s out, fold_left (accumulate step) h (Ok (s, out)) = do '(s', o') <- run s h; Ok (s', out ++ o')).
  { induction h as [|o h IH]; intros s out; [rewrite Hn; cbn; now rewrite app_nil_r|]. rewrite Hc. cbn. destruct (step s o) as [[s1 o1]|e]; cbn; [|apply Herr]. rewrite IH. destruct (run s1 h) as [[s2 o2]|e]; cbn; auto. now rewrite app_assoc. }
  intros h s. rewrite G. destruct (run s h) as [[s' o']|e]; reflexivity.
Qed.

(** C58 for ExactTime::add *)
Theorem C58_exact_time {E R} (stamp : E -> Z) n q (body : nat * E -> sect (Exact_Model.state E * list (Exact_Model.out E)) R) calls sched c acq :
  (forall o s out, fst (sect_run (body o) (s, out)) = let (s', o') := Exact_Model.add stamp n q s o in (s', out ++ o')) ->
  exec sched (start (fun _ => (Exact_Model.init, [])) (map (locked_calls body) calls)) = (c, acq) -> finished c ->
  exists order, interleaving calls order /\ part c 0 = Exact_Model.run stamp n q Exact_Model.init (map snd order).
Proof.
  intros Hb Ex F. destruct (C58_equivalent_to_sequential body (fun p o => let (s', o') := Exact_Model.add stamp n q (fst p) o in (s', snd p ++ o')) (fun o p => match p with (s, out) => Hb o s out end) _ _ _ _ _ Ex F) as (order & Hi & _ & Hp).
  exists order. split; auto. rewrite Hp. clear. assert (G : forall h s out, fold_left (fun p o => let (s', o') := Exact_Model.add stamp n q (fst p) o in (s', snd p ++ o')) h (s, out) = let (s', o') := Exact_Model.run stamp n q s h in (s', out ++ o')).
  { induction h as [|o h IH]; intros s out; cbn; [now rewrite app_nil_r|]. destruct (Exact_Model.add stamp n q s o) as [s1 o1]. cbn. rewrite IH. destruct (Exact_Model.run stamp n q s1 h). now rewrite app_assoc. }
  rewrite G. now destruct (Exact_Model.run stamp n q Exact_Model.init (map snd order)).
Qed.
(** C58: so what was proved of sequential use holds of concurrent use.  For instance C16: every set
    has one message per input, passed to add on that input by some thread, all with the same stamp. *)
Corollary C58_exact_time_sets_match {E R} (stamp : E -> Z) n q (body : nat * E -> sect (Exact_Model.state E * list (Exact_Model.out E)) R) calls sched c acq ss :
  (forall o s out, fst (sect_run (body o) (s, out)) = let (s', o') := Exact_Model.add stamp n q s o in (s', out ++ o')) ->
  exec sched (start (fun _ => (Exact_Model.init, [])) (map (locked_calls body) calls)) = (c, acq) -> finished c ->
  (forall i e, In (i, e) (concat calls) -> i < n) ->
  In ss (Exact_Spec.signals (snd (part c 0))) ->
  length ss = n /\ exists t, forall i e, nth_error ss i = Some e -> stamp e = t /\ In (i, e) (concat calls).
Proof.
  intros Hb Ex F Hn Hs. destruct (C58_exact_time stamp n q body calls sched c acq Hb Ex F) as (order & Hi & Hp). rewrite Hp in Hs. pose proof (interleaving_perm _ _ Hi) as Hperm.
  destruct (Exact_Props.C16_exact_sets_match stamp n q (map snd order) ss) as (t & Hm); auto.
  - intros i e Hie. apply (Hn i e). eapply Permutation_in; eauto.
  - destruct Hm as (Hl & Hm). split; auto. exists t. intros i e He. destruct (Hm i e He). split; auto. eapply Permutation_in; eauto.
Qed.

(** C58 for ApproximateTime::add *)
Theorem C58_approximate_time {E R} (stamp : E -> Z) cfg (body : nat * E -> sect (res (Approx_Model.state E * list (list E))) R) calls sched c acq :
  (forall o p, fst (sect_run (body o) p) = accumulate (Approx_Model.add stamp cfg) p o) ->
  exec sched (start (fun _ => Ok (Approx_Model.init cfg, [])) (map (locked_calls body) calls)) = (c, acq) -> finished c ->
  exists order, interleaving calls order /\ part c 0 = Approx_Model.run stamp cfg (Approx_Model.init cfg) (map snd order).
Proof.
  intros Hb Ex F. destruct (C58_equivalent_to_sequential body _ Hb _ _ _ _ _ Ex F) as (order & Hi & _ & Hp). exists order. split; auto. rewrite Hp. apply accumulate_run; reflexivity.
Qed.
(** C58 for ApproximateEpsilonTime::add *)
Theorem C58_approximate_epsilon_time {E R} (stamp : E -> Z) n q eps (body : nat * E -> sect (res (Eps_Model.state E * list (list E))) R) calls sched c acq :
  (forall o p, fst (sect_run (body o) p) = accumulate (Eps_Model.add stamp n q eps) p o) ->
  exec sched (start (fun _ => Ok (Eps_Model.init n, [])) (map (locked_calls body) calls)) = (c, acq) -> finished c ->
  exists order, interleaving calls order /\ part c 0 = Eps_Model.run stamp n q eps (Eps_Model.init n) (map snd order).
Proof.
  intros Hb Ex F. destruct (C58_equivalent_to_sequential body _ Hb _ _ _ _ _ Ex F) as (order & Hi & _ & Hp). exists order. split; auto. rewrite Hp. apply accumulate_run; reflexivity.
Qed.
(** C58 for LatestTime::add: a call is an input, a message and the moment read from the clock *)
Theorem C58_latest_time {E D R} (f : Latest_Model.fops D) n default (cfgs : list (Latest_Model.config D))
    (body : nat * E * time -> sect (res (Latest_Model.state E D * list (Latest_Model.outcome E))) R) calls sched c acq :
  let s0 := Latest_Model.mkState (repeat None n) [] cfgs in
  (forall o p, fst (sect_run (body o) p) =
     accumulate (fun s o => do '(s', x) <- Latest_Model.add f n default s (fst (fst o)) (snd (fst o)) (snd o); Ok (s', [x])) p o) ->
  exec sched (start (fun _ => Ok (s0, [])) (map (locked_calls body) calls)) = (c, acq) -> finished c ->
  exists order, interleaving calls order /\
    part c 0 = Latest_Model.run f n default s0 (map (fun o => Latest_Model.Add (fst (fst o)) (snd (fst o)) (snd o)) (map snd order)).
Proof.
  intros s0 Hb Ex F. destruct (C58_equivalent_to_sequential body _ Hb _ _ _ _ _ Ex F) as (order & Hi & _ & Hp). exists order. split; auto. rewrite Hp.
  apply (accumulate_run _ (fun s h => Latest_Model.run f n default s (map (fun o => Latest_Model.Add (fst (fst o)) (snd (fst o)) (snd o)) h))); [reflexivity|].
  intros s o h. cbn. destruct (Latest_Model.add f n default s (fst (fst o)) (snd (fst o)) (snd o)) as [[s1 x]|e]; reflexivity.
Qed.
(** C58 for InputAligner: add ([Some (i, e)]) and dispatchMessages ([None]) *)
Definition aligner_call {E} (o : option (nat * E)) : Aligner_Model.op E := match o with Some (i, e) => Aligner_Model.Add i e | None => Aligner_Model.Dispatch end.
Theorem C58_input_aligner {E R} (stamp : E -> Z) timeout s0 (body : option (nat * E) -> sect (res (Aligner_Model.state E * list (nat * E))) R) calls sched c acq :
  (forall o p, fst (sect_run (body o) p) = accumulate (fun s o => Aligner_Model.step stamp timeout s (aligner_call o)) p o) ->
  exec sched (start (fun _ => Ok (s0, [])) (map (locked_calls body) calls)) = (c, acq) -> finished c ->
  exists order, interleaving calls order /\ part c 0 = Aligner_Model.run stamp timeout s0 (map aligner_call (map snd order)).
Proof.
  intros Hb Ex F. destruct (C58_equivalent_to_sequential body _ Hb _ _ _ _ _ Ex F) as (order & Hi & _ & Hp). exists order. split; auto. rewrite Hp.
  apply (accumulate_run _ (fun s h => Aligner_Model.run stamp timeout s (map aligner_call h))); reflexivity.
Qed.

(** C58: an ExactTime whose add makes two steps, the insertion into the map and checkTuple.  Three
    threads; thread 1 is scheduled in the middle of the addition of thread 0 and has to wait. *)
Definition exact_body (n q : nat) (o : nat * Z) : sect (Exact_Model.state Z * list (Exact_Model.out Z)) (list (option Z)) :=
  SAct (fun p => let (m, t) := Exact_Model.put n (snd o) (fst o) (snd o) (Exact_Model.tuples (fst p)) in
                 ((Exact_Model.mkState m (Exact_Model.last_signal_time (fst p)), snd p), t))
  (fun t => SAct (fun p => let (s', o') := Exact_Model.checkTuple (fun z => z) q t (fst p) in ((s', snd p ++ o'), t)) SRet).
Example C58_exact_body n q o s out :
  fst (sect_run (exact_body n q o) (s, out)) = let (s', o') := Exact_Model.add (fun z => z) n q s o in (s', out ++ o').
Proof.
  destruct o as [i e]. cbn. unfold Exact_Model.add. destruct (Exact_Model.put n e i e (Exact_Model.tuples s)) as [m t]. cbn.
  destruct (Exact_Model.checkTuple (fun z => z) q t {| Exact_Model.tuples := m; Exact_Model.last_signal_time := Exact_Model.last_signal_time s |}). reflexivity.
Qed.
Definition exact_threads : list (list (nat * Z)) := [[(0, 1%Z); (0, 2%Z)]; [(1, 2%Z)]; [(1, 1%Z)]].
Definition exact_schedule : list nat := [0; 1; 0; 1; 0; 0; 1; 1; 0; 1; 1; 0; 2; 0; 0; 0; 2; 2; 2; 2; 0; 0; 0; 0].
Definition exact_end := exec exact_schedule (start (fun _ => (Exact_Model.init, [])) (map (locked_calls (exact_body 2 0)) exact_threads)).
Example C58_exact_example : finished (fst exact_end) /\ takers 0 (snd exact_end) = [0; 1; 0; 2]
  /\ part (fst exact_end) 0 = Exact_Model.run (fun z => z) 2 0 Exact_Model.init [(0, 1%Z); (1, 2%Z); (0, 2%Z); (1, 1%Z)]
  /\ Exact_Spec.signals (snd (part (fst exact_end) 0)) = [[2; 2]%Z].
Proof. split; [apply (repeat_finished 3); vm_compute; reflexivity|]. split; [vm_compute; reflexivity|]. split; vm_compute; reflexivity. Qed.

(** * C59: the cache *)
Section Cache.
Context {E : Type} (stamp : E -> time).
Notation state := (@Cache_Model.state E).
Notation out := (Cache_Model.out E).
(** calls of add and of the queries; the results of all calls are part of the state *)
Definition cache_apply (so : state * list out) (o : Cache_Model.op E) : (state * list out) * list E :=
  let (s', x) := Cache_Model.step stamp (fst so) o in
  ((s', snd so ++ [x]), match x with Cache_Model.Forwarded e => [e] | _ => [] end).
Variables (body : Cache_Model.op E -> sect (two_part (state * list out) E) (list E)) (signal : E -> sect (two_part (state * list out) E) (list E)).
Hypothesis insert_alone : forall o s, sect_run (body o) (inl s) = (inl (fst (cache_apply s o)), snd (cache_apply s o)).
Hypothesis signal_alone : forall e l, fst (sect_run (signal e) (inr l)) = inr (l ++ [e]).
Variable n : nat.
Notation program calls := (start (two_start (Cache_Model.ctor n, [])) (map (two_calls body signal) calls)).

Lemma cache_apply_eq s outs o : cache_apply (s, outs) o =
  let (s', x) := Cache_Model.step stamp s o in ((s', outs ++ [x]), match x with Cache_Model.Forwarded e => [e] | _ => [] end).
Proof. reflexivity. Qed.
Lemma cache_srun order : forall s outs, srun cache_apply (s, outs) order =
  ((fst (Cache_Model.run stamp s (map snd order)), outs ++ snd (Cache_Model.run stamp s (map snd order))), snd (srun cache_apply (s, outs) order)).
Proof.
  induction order as [|[t o] r IH]; intros s outs; cbn; [now rewrite app_nil_r|]. rewrite !cache_apply_eq. destruct (Cache_Model.step stamp s o) as [s' x].
  rewrite (IH s' (outs ++ [x])). destruct (Cache_Model.run stamp s' (map snd r)) as [s2 xs]. cbn. now rewrite <- app_assoc.
Qed.
Lemma cache_srun_outs order : forall s outs, map snd (snd (srun cache_apply (s, outs) order)) = Cache_Spec.forwarded (snd (Cache_Model.run stamp s (map snd order))).
Proof.
  induction order as [|[t o] r IH]; intros s outs; cbn; auto. rewrite cache_apply_eq. destruct (Cache_Model.step stamp s o) as [s' x]. specialize (IH s' (outs ++ [x])).
  destruct (srun cache_apply (s', outs ++ [x]) r) as [s2 os]. destruct (Cache_Model.run stamp s' (map snd r)) as [s3 xs]. cbn in *. rewrite map_app, map_map, IH. cbn. now rewrite map_id.
Qed.

(** C59: the contents and the results of all calls, queries included, are those of a sequential run
    in the order in which the threads took the lock of the cache; everything that this run forwards is
    forwarded, exactly once, though maybe in another order. *)
Theorem C59_equivalent_to_sequential calls sched c acq :
  exec sched (program calls) = (c, acq) -> finished c ->
  exists order forwarded, interleaving calls order /\ map fst order = takers 0 acq /\
    part c 0 = inl (Cache_Model.run stamp (Cache_Model.ctor n) (map snd order)) /\
    part c 1 = inr forwarded /\ Permutation forwarded (Cache_Spec.forwarded (Cache_Model.outputs stamp n (map snd order))).
Proof.
  intros Ex F. destruct (two_finished body signal cache_apply insert_alone signal_alone _ _ _ _ _ Ex F) as (order & emitted & Hi & Ho & He & H0 & H1 & Hc & Hp). exists order, (map snd emitted).
  split; auto. split; auto. rewrite cache_srun in H0. cbn in H0. split; [rewrite H0; now destruct (Cache_Model.run stamp (Cache_Model.ctor n) (map snd order))|]. split; auto. rewrite Hp, cache_srun_outs. reflexivity.
Qed.

(** C59: every message added is forwarded exactly once; the messages added by one thread are forwarded
    in the order in which it added them. *)
Theorem C59_exactly_once k calls sched c acq :
  0 < n -> (forall e, In e (concat calls) -> clk (stamp e) = k) ->
  exec sched (program (map (map Cache_Model.Add) calls)) = (c, acq) -> finished c ->
  exists forwarded, interleaving calls forwarded /\ part c 1 = inr (map snd forwarded) /\ Permutation (map snd forwarded) (concat calls).
Proof.
  intros Hn Hk Ex F. destruct (two_finished body signal cache_apply insert_alone signal_alone _ _ _ _ _ Ex F) as (order & emitted & Hi & Ho & He & H0 & H1 & Hc & Hp).
  pose proof (interleaving_perm _ _ Hi) as Hperm. rewrite <- (concat_map Cache_Model.Add) in Hperm.
  assert (Hadd : forall x, In x order -> exists e, snd x = Cache_Model.Add e /\ In e (concat calls)).
  { intros x Hx. apply (in_map snd) in Hx. apply (Permutation_in _ Hperm) in Hx. apply in_map_iff in Hx. destruct Hx as (e & Ee & Hin). eauto. }
  assert (Hout : forall h1 h2 s, (forall x, In x (h1 ++ h2) -> exists e, snd x = Cache_Model.Add e /\ clk (stamp e) = k) -> fst s = Cache_Model.final stamp n (map snd h1) ->
    snd (srun cache_apply s h2) = flat_map (fun x => match snd x with Cache_Model.Add e => [(fst x, e)] | _ => [] end) h2).
  { intros h1 h2. revert h1. induction h2 as [|[t o] h2 IH]; intros h1 s Hx Es; auto. cbn. destruct (Hx (t, o)) as (e & Ee & Hck); [apply in_or_app; cbn; auto|]. cbn in Ee. subst o.
    assert (Hf : Cache_Model.step stamp (fst s) (Cache_Model.Add e) = (fst (Cache_Model.step stamp (fst s) (Cache_Model.Add e)), Cache_Model.Forwarded e)).
    { rewrite (surjective_pairing (Cache_Model.step stamp (fst s) (Cache_Model.Add e))) at 1. f_equal. rewrite Es. apply (Cache_Props.C13_cache_forwards_immediately stamp k); auto.
      intros y Hy. unfold Cache_Spec.added in Hy. apply in_flat_map in Hy. destruct Hy as (o & Ho1 & Hy). destruct o; try contradiction. destruct Hy as [<-|[]].
      apply in_app_iff in Ho1. destruct Ho1 as [Ho1|[Ho1|[]]].
      - apply in_map_iff in Ho1. destruct Ho1 as (z & Ez & Hz). destruct (Hx z) as (e' & Ee' & Hc'); [apply in_or_app; auto|]. rewrite Ez in Ee'. injection Ee' as <-. exact Hc'.
      - injection Ho1 as <-. exact Hck. }
    rewrite (surjective_pairing s), cache_apply_eq, Hf. cbn [fst snd]. specialize (IH (h1 ++ [(t, Cache_Model.Add e)]) (fst (Cache_Model.step stamp (fst s) (Cache_Model.Add e)), snd s ++ [Cache_Model.Forwarded e])).
    destruct (srun cache_apply (fst (Cache_Model.step stamp (fst s) (Cache_Model.Add e)), snd s ++ [Cache_Model.Forwarded e]) h2) as [s2 os] eqn:E2. cbn [snd] in *. cbn. f_equal. apply IH.
    - intros x Hxx. apply Hx. rewrite <- app_assoc in Hxx. exact Hxx.
    - cbn [fst]. rewrite map_app. cbn. rewrite Cache_Proofs.final_snoc, <- Es. reflexivity. }
  assert (Eo : snd (srun cache_apply (Cache_Model.ctor n, []) order) = flat_map (fun x => match snd x with Cache_Model.Add e => [(fst x, e)] | _ => [] end) order).
  { apply (Hout []); [|reflexivity]. intros x Hx. destruct (Hadd x Hx) as (e & Ee & Hin). exists e. auto. }
  assert (Hcalls : forall tid, map Cache_Model.Add (calls_of tid emitted) = calls_of tid order).
  { intros tid. rewrite Hc, Eo. clear -Hadd. unfold calls_of. induction order as [|[t o] l IH]; auto. destruct (Hadd (t, o) (or_introl eq_refl)) as (e & Ee & _). cbn in Ee. subst o. cbn.
    destruct (Nat.eqb t tid); cbn; [f_equal|]; apply IH; intros x Hx; apply Hadd; now right. }
  assert (Hie : interleaving calls emitted).
  { split.
    - intros x Hx. destruct (Nat.lt_ge_cases (fst x) (length calls)) as [|Hge]; auto. exfalso. assert (Hnil : calls_of (fst x) order = []). { apply (calls_of_none (length (map (map (@Cache_Model.Add E)) calls))); [apply Hi|]. now rewrite map_length. }
      rewrite <- Hcalls in Hnil. assert (Hin : In (snd x) (calls_of (fst x) emitted)). { unfold calls_of. apply in_map. apply filter_In. split; auto. apply Nat.eqb_refl. }
      destruct (calls_of (fst x) emitted); [contradiction|discriminate].
    - intros tid ops Eops. destruct Hi as (_ & Hi). specialize (Hi tid (map Cache_Model.Add ops)). rewrite nth_error_map, Eops in Hi. specialize (Hi eq_refl). rewrite <- Hcalls in Hi.
      clear -Hi. revert Hi. generalize (calls_of tid emitted). intros l. revert ops. induction l as [|x l IH]; intros [|y ops] H; try discriminate; auto. injection H as <- H. f_equal. auto. }
  exists emitted. split; auto. split; auto. apply interleaving_perm. exact Hie.
Qed.
(** C59: no thread is blocked for good *)
Theorem C59_can_finish calls sched c acq :
  exec sched (program calls) = (c, acq) -> exists more, finished (fst (exec more c)).
Proof.
  intros Ex. pose proof (sim_exec _ _ _ _ _ (sim_start (two_start (Cache_Model.ctor n, [])) (map (two_calls body signal) calls)) Ex) as S. destruct (can_finish _ _ S) as (s & H). exists s. intros t Ht. apply In_nth_error in Ht. destruct Ht as (tid & Ht). eauto.
Qed.
End Cache.

(** C59: if the cache has one input filter, add runs while the signal of that filter holds its mutex
    (signal1.hpp:104-114), so insertion and forwarding are one section: the messages are forwarded in
    the order of insertion.  Not covered, and not true: several sources. *)
Theorem C59_one_input_partial {E R} (stamp : E -> time) k n (body : E -> sect (@Cache_Model.state E * list E) R) calls sched c acq :
  0 < n -> (forall e, In e (concat calls) -> clk (stamp e) = k) ->
  (forall e s l, fst (sect_run (body e) (s, l)) =
     let (s', x) := Cache_Model.add stamp e s in (s', l ++ match x with Cache_Model.Forwarded e' => [e'] | _ => [] end)) ->
  exec sched (start (fun _ => (Cache_Model.ctor n, [])) (map (locked_calls body) calls)) = (c, acq) -> finished c ->
  exists order, interleaving calls order /\
    part c 0 = (Cache_Model.final stamp n (map Cache_Model.Add (map snd order)), map snd order).
Proof.
  intros Hn Hk Hb Ex F.
  destruct (C58_equivalent_to_sequential body (fun p e => let (s', x) := Cache_Model.add stamp e (fst p) in (s', snd p ++ match x with Cache_Model.Forwarded e' => [e'] | _ => [] end)) (fun o p => match p with (s, l) => Hb o s l end) _ _ _ _ _ Ex F) as (order & Hi & _ & Hp).
  exists order. split; auto. rewrite Hp. pose proof (interleaving_perm _ _ Hi) as Hperm.
  assert (Hck : forall e, In e (map snd order) -> clk (stamp e) = k) by (intros e He; apply Hk; eapply Permutation_in; eauto). clear -Hn Hck. revert Hck. generalize (map snd order). intros l Hck.
  assert (G : forall h1 h2, (forall e, In e (h1 ++ h2) -> clk (stamp e) = k) -> forall out, fold_left (fun p e => let (s', x) := Cache_Model.add stamp e (fst p) in (s', snd p ++ match x with Cache_Model.Forwarded e' => [e'] | _ => [] end)) h2 (Cache_Model.final stamp n (map Cache_Model.Add h1), out)
     = (Cache_Model.final stamp n (map Cache_Model.Add (h1 ++ h2)), out ++ h2)).
  { intros h1 h2. revert h1. induction h2 as [|e h2 IH]; intros h1 H out; [cbn; now rewrite !app_nil_r|]. cbn [fold_left fst snd].
    assert (Hf : snd (Cache_Model.step stamp (Cache_Model.final stamp n (map Cache_Model.Add h1)) (Cache_Model.Add e)) = Cache_Model.Forwarded e).
    { apply (Cache_Props.C13_cache_forwards_immediately stamp k); auto. intros y Hy. apply H. unfold Cache_Spec.added in Hy. apply in_flat_map in Hy. destruct Hy as (o & Ho & Hy). destruct o; try contradiction. destruct Hy as [<-|[]].
      apply in_app_iff in Ho. apply in_or_app. destruct Ho as [Ho|[Ho|[]]]; [left; apply in_map_iff in Ho; destruct Ho as (z & Ez & Hz); congruence|right; left; congruence]. }
    pose proof (Cache_Proofs.final_snoc stamp n (map Cache_Model.Add h1) (Cache_Model.Add e)) as Hs. cbn [Cache_Model.step] in Hf, Hs. destruct (Cache_Model.add stamp e (Cache_Model.final stamp n (map Cache_Model.Add h1))) as [s' x]. cbn [fst snd] in *. subst x.
    replace s' with (Cache_Model.final stamp n (map Cache_Model.Add (h1 ++ [e]))) by (rewrite map_app; exact Hs). replace (h1 ++ e :: h2) with ((h1 ++ [e]) ++ h2) in * by (rewrite <- app_assoc; reflexivity). rewrite IH by exact H. f_equal. now rewrite <- app_assoc. }
  exact (G [] l Hck []).
Qed.

(** the steps of a concrete cache *)
Definition cache_body (o : Cache_Model.op time) : sect (two_part (@Cache_Model.state time * list (Cache_Model.out time)) time) (list time) :=
  SAct (fun p => match p with inl s => (inl (fst (cache_apply (fun t => t) s o)), snd (cache_apply (fun t => t) s o)) | inr l => (inr l, []) end) SRet.
Definition cache_signal (e : time) : sect (two_part (@Cache_Model.state time * list (Cache_Model.out time)) time) (list time) :=
  SAct (fun p => match p with inl s => (inl s, []) | inr l => (inr (l ++ [e]), []) end) SRet.
Example C59_bodies : (forall o s, sect_run (cache_body o) (inl s) = (inl (fst (cache_apply (fun t => t) s o)), snd (cache_apply (fun t => t) s o)))
  /\ forall e l, fst (sect_run (cache_signal e) (inr l)) = inr (l ++ [e]).
Proof. split; reflexivity. Qed.
Definition stamp_at (z : Z) : time := mkTime z RosClock.
Definition cache_threads : list (list time) := [[stamp_at 1; stamp_at 3]; [stamp_at 2]].
(** thread 0 inserts message 1, thread 1 inserts and forwards message 2, then thread 0 goes on *)
Definition cache_schedule : list nat := [0; 0; 0; 1; 1; 1; 1; 1; 1; 0; 0; 0; 0; 0; 0; 0; 0; 0].
Definition cache_end := exec cache_schedule (start (two_start (Cache_Model.ctor 5, [])) (map (two_calls cache_body cache_signal) (map (map Cache_Model.Add) cache_threads))).
(** C59, the order: message 1 was inserted before message 2, message 2 was forwarded first *)
Theorem C59_order_refuted :
  ~ (forall calls sched c acq, exec sched (start (two_start (Cache_Model.ctor 5, [])) (map (two_calls cache_body cache_signal) (map (map Cache_Model.Add) calls))) = (c, acq) -> finished c ->
     exists order, interleaving calls order /\ map fst order = takers 0 acq /\ part c 1 = inr (map snd order)).
Proof.
  intros H. destruct (H cache_threads cache_schedule (fst cache_end) (snd cache_end) (surjective_pairing cache_end)) as (order & (Hb & Hi) & Ht & Hp); [apply (repeat_finished 2); vm_compute; reflexivity|].
  assert (Et : takers 0 (snd cache_end) = [0; 1; 0]) by (vm_compute; reflexivity). rewrite Et in Ht. assert (Ep : part (fst cache_end) 1 = inr [stamp_at 2; stamp_at 1; stamp_at 3]) by (vm_compute; reflexivity).
  rewrite Ep in Hp. injection Hp as Hp. clear Et Ep H. destruct order as [|[t1 a] [|[t2 b] [|[t3 d] [|x r]]]]; try discriminate Ht. cbn in Ht, Hp. injection Ht as -> -> ->. injection Hp as <- <- <-.
  specialize (Hi 1 [stamp_at 2] eq_refl). cbn in Hi. discriminate Hi.
Qed.
(** the same schedule: the hypotheses of the theorems hold, the messages end up in the order 2, 1, 3 *)
Example C59_example : finished (fst cache_end) /\ part (fst cache_end) 1 = inr [stamp_at 2; stamp_at 1; stamp_at 3]
  /\ match part (fst cache_end) 0 with inl (s, _) => Cache_Model.contents s = [stamp_at 1; stamp_at 2; stamp_at 3] | inr _ => False end
  /\ forall e, In e (concat cache_threads) -> clk e = RosClock.
Proof. split; [apply (repeat_finished 2); vm_compute; reflexivity|]. split; [vm_compute; reflexivity|]. split; [vm_compute; reflexivity|]. intros e [<-|[<-|[<-|[]]]]; reflexivity. Qed.

(** * C80: TimeSequencer *)
Section Seq.
Context {E : Type} (stamp : E -> time).
Variables (q : nat) (delay : Z).
Definition seq_apply (r : res (Seq_Model.state E)) (o : Seq_Model.op E) : res (Seq_Model.state E) * list E :=
  match (do s <- r; Seq_Model.step stamp q delay s o) with Ok (s', out) => (Ok s', out) | Err e => (Err e, []) end.
Variables (body : Seq_Model.op E -> sect (two_part (res (Seq_Model.state E)) E) (list E)) (signal : E -> sect (two_part (res (Seq_Model.state E)) E) (list E)).
Hypothesis body_alone : forall o s, sect_run (body o) (inl s) = (inl (fst (seq_apply s o)), snd (seq_apply s o)).
Hypothesis signal_alone : forall e l, fst (sect_run (signal e) (inr l)) = inr (l ++ [e]).
Notation program calls := (start (two_start (Ok Seq_Model.init)) (map (two_calls body signal) calls)).

Lemma seq_srun order : forall s s' outs, Seq_Model.run stamp q delay s (map snd order) = Ok (s', outs) ->
  fst (srun seq_apply (Ok s) order) = Ok s' /\ map snd (snd (srun seq_apply (Ok s) order)) = outs /\
  forall x, In x (snd (srun seq_apply (Ok s) order)) -> exists nows, In (fst x, Seq_Model.Tick nows) order.
Proof.
  induction order as [|[t o] r IH]; intros s s' outs H; cbn in H; [injection H as <- <-; cbn; split; auto; split; auto; contradiction|]. unfold srun; fold (srun seq_apply). unfold seq_apply at 1 3 5. cbn [bind].
  destruct (Seq_Model.step stamp q delay s o) as [[s1 o1]|e] eqn:Es; [|discriminate]. cbn in H. destruct (Seq_Model.run stamp q delay s1 (map snd r)) as [[s2 o2]|e] eqn:Er; [|discriminate]. cbn in H. injection H as <- <-.
  destruct (IH _ _ _ Er) as (A & B & C). destruct (srun seq_apply (Ok s1) r) as [s3 o3]. cbn in *. split; auto. rewrite map_app, map_map, B. cbn. rewrite map_id. split; auto.
  intros x Hx. apply in_app_iff in Hx. destruct Hx as [Hx|Hx]; [|destruct (C x Hx) as (nows & Hin); eauto]. apply in_map_iff in Hx. destruct Hx as (e & <- & He). cbn. destruct o as [e0|nows]; [|eauto].
  apply Seq_Props.C40_seq_add_passes_nothing in Es. subst o1. contradiction.
Qed.

(** C80: whatever the threads do, the queue ends up as after a sequential run and what this run passes
    on is passed on, exactly once. *)
Theorem C80_exactly_once calls sched c acq :
  Seq_Spec.system_stamps stamp -> exec sched (program calls) = (c, acq) -> finished c ->
  exists order s outs passed, interleaving calls order /\ Seq_Model.run stamp q delay Seq_Model.init (map snd order) = Ok (s, outs) /\
    part c 0 = inl (Ok s) /\ part c 1 = inr passed /\ Permutation passed outs.
Proof.
  intros Hs Ex F. destruct (two_finished body signal seq_apply body_alone signal_alone _ _ _ _ _ Ex F) as (order & emitted & Hi & Ho & He & H0 & H1 & Hc & Hp).
  destruct (Seq_Props.C41_seq_accounting stamp Hs q delay (map snd order)) as (s & outs & _ & _ & Hr & _). destruct (seq_srun _ _ _ _ Hr) as (A & B & C). exists order, s, outs, (map snd emitted).
  rewrite A in H0. rewrite B in Hp. auto.
Qed.

(** C80: if dispatch is called by one thread only (the executor runs the timer of the sequencer in one
    thread at a time), everything is passed on in the order of the sequential run, whatever the
    threads that add messages do. *)
Theorem C80_one_dispatcher calls d sched c acq :
  Seq_Spec.system_stamps stamp -> exec sched (program calls) = (c, acq) -> finished c ->
  (forall tid ops nows, nth_error calls tid = Some ops -> In (Seq_Model.Tick nows) ops -> tid = d) ->
  exists order s outs, interleaving calls order /\ Seq_Model.run stamp q delay Seq_Model.init (map snd order) = Ok (s, outs) /\
    part c 0 = inl (Ok s) /\ part c 1 = inr outs.
Proof.
  intros Hs Ex F Hd. destruct (two_finished body signal seq_apply body_alone signal_alone _ _ _ _ _ Ex F) as (order & emitted & Hi & Ho & He & H0 & H1 & Hc & Hp).
  destruct (Seq_Props.C41_seq_accounting stamp Hs q delay (map snd order)) as (s & outs & _ & _ & Hr & _). destruct (seq_srun _ _ _ _ Hr) as (A & B & C). exists order, s, outs.
  split; auto. split; auto. rewrite A in H0. split; auto. rewrite H1. f_equal.
  assert (Ht : forall x, In x (snd (srun seq_apply (Ok Seq_Model.init) order)) -> fst x = d).
  { intros x Hx. destruct (C x Hx) as (nows & Hin). destruct Hi as (Hlt & Hi). pose proof (Hlt _ Hin) as Hl. cbn in Hl. apply nth_error_Some in Hl. destruct (nth_error calls (fst x)) as [ops|] eqn:Eo; [|congruence].
    apply (Hd _ _ nows Eo). rewrite <- (Hi _ _ Eo). unfold calls_of. apply in_map_iff. exists (fst x, Seq_Model.Tick nows). split; auto. apply filter_In. split; auto. apply Nat.eqb_refl. }
  assert (Ht2 : forall x, In x emitted -> fst x = d).
  { intros x Hx. assert (Hin : In (snd x) (calls_of (fst x) emitted)). { unfold calls_of. apply in_map. apply filter_In. split; auto. apply Nat.eqb_refl. }
    rewrite Hc in Hin. unfold calls_of in Hin. apply in_map_iff in Hin. destruct Hin as (y & _ & Hy). apply filter_In in Hy. destruct Hy as (Hy & Ey). apply Nat.eqb_eq in Ey. rewrite <- Ey. auto. }
  rewrite <- B, <- (all_one_thread d _ Ht), <- (all_one_thread d _ Ht2). apply Hc.
Qed.
(** C80: so what leaves the sequencer is in the order of the stamps *)
Corollary C80_one_dispatcher_in_order calls d sched c acq passed :
  Seq_Spec.system_stamps stamp -> exec sched (program calls) = (c, acq) -> finished c ->
  (forall tid ops nows, nth_error calls tid = Some ops -> In (Seq_Model.Tick nows) ops -> tid = d) ->
  part c 1 = inr passed -> nondecreasing (fun e => ns (stamp e)) passed.
Proof.
  intros Hs Ex F Hd Hp. destruct (C80_one_dispatcher calls d sched c acq Hs Ex F Hd) as (order & s & outs & _ & Hr & _ & H1). rewrite H1 in Hp. injection Hp as <-. exact (Seq_Props.C39_seq_ordered stamp Hs q delay _ _ _ Hr).
Qed.
End Seq.

Definition sys (z : Z) : time := mkTime z SystemClock.
Definition seq_body (o : Seq_Model.op Z) : sect (two_part (res (Seq_Model.state Z)) Z) (list Z) :=
  SAct (fun p => match p with inl s => (inl (fst (seq_apply sys 0 0 s o)), snd (seq_apply sys 0 0 s o)) | inr l => (inr l, []) end) SRet.
Definition seq_signal (e : Z) : sect (two_part (res (Seq_Model.state Z)) Z) (list Z) :=
  SAct (fun p => match p with inl s => (inl s, []) | inr l => (inr (l ++ [e]), []) end) SRet.
Example C80_bodies : (forall o s, sect_run (seq_body o) (inl s) = (inl (fst (seq_apply sys 0 0 s o)), snd (seq_apply sys 0 0 s o)))
  /\ (forall e l, fst (sect_run (seq_signal e) (inr l)) = inr (l ++ [e])) /\ Seq_Spec.system_stamps sys.
Proof. split; [reflexivity|]. split; [reflexivity|]. intros z. reflexivity. Qed.
Notation seq_program calls := (start (two_start (Ok Seq_Model.init)) (map (two_calls seq_body seq_signal) calls)).
Definition tick (z : Z) : Seq_Model.op Z := Seq_Model.Tick (fun _ => z).
(** one dispatcher (thread 0), one other thread adding meanwhile *)
Definition seq_calls1 : list (list (Seq_Model.op Z)) := [[tick 1; tick 2]; [Seq_Model.Add 2; Seq_Model.Add 1]]%Z.
Definition seq_schedule1 : list nat := [1; 1; 1; 1; 1; 1; 0; 0; 0; 0; 0; 0; 0; 0; 0; 0; 0; 0].
Definition seq_end1 := exec seq_schedule1 (seq_program seq_calls1).
Example C80_example : finished (fst seq_end1) /\ part (fst seq_end1) 1 = inr [1; 2]%Z
  /\ forall tid ops nows, nth_error seq_calls1 tid = Some ops -> In (Seq_Model.Tick nows) ops -> tid = 0.
Proof.
  split; [apply (repeat_finished 2); vm_compute; reflexivity|]. split; [vm_compute; reflexivity|].
  intros [|[|tid]] ops nows E H; cbn in E; [reflexivity| |destruct tid; discriminate]. injection E as <-. destruct H as [H|[H|[]]]; discriminate.
Qed.
(** C80, several dispatchers: each of two dispatchers takes one message; the second passes on its own
    first: the later stamp leaves first. *)
Definition seq_calls2 : list (list (Seq_Model.op Z)) := [[Seq_Model.Add 1; Seq_Model.Add 2; tick 1]; [tick 2]]%Z.
Definition seq_schedule2 : list nat := [0; 0; 0; 0; 0; 0; 0; 0; 0; 1; 1; 1; 1; 1; 1; 0; 0; 0].
Definition seq_end2 := exec seq_schedule2 (seq_program seq_calls2).
Theorem C80_refuted :
  ~ (forall calls sched c acq passed, exec sched (seq_program calls) = (c, acq) -> finished c ->
     part c 1 = inr passed -> nondecreasing (fun e => ns (sys e)) passed).
Proof.
  intros H. specialize (H seq_calls2 seq_schedule2 (fst seq_end2) (snd seq_end2) [2; 1]%Z (surjective_pairing seq_end2)).
  assert (N : nondecreasing (fun e => ns (sys e)) [2; 1]%Z) by (apply H; [apply (repeat_finished 2); vm_compute; reflexivity|vm_compute; reflexivity]).
  clear H. apply Sorted.StronglySorted_inv in N. destruct N as (_ & N). inversion N as [|x l Hx _ E]. subst. revert Hx. vm_compute. intros Hx. now apply Hx.
Qed.

(** * C81: the Python Cache *)
(** the whole effect of a program that runs alone *)
Fixpoint alone {P R} (p : prog P R) (s : P) : P := match p with Done => s | Sec _ b k => let (s', r) := sect_run b s in alone (k r) s' end.
Inductive mutex0 {P R} : prog P R -> Prop := M0_done : mutex0 Done | M0_sec b k : (forall r, mutex0 (k r)) -> mutex0 (Sec 0 b k).
Lemma alone_arun {P R} tids : forall (a : aconfig (P := P) (R := R)) p, progs a = [p] -> mutex0 p ->
  exists p', progs (arun tids a) = [p'] /\ mutex0 p' /\ alone p' (apart (arun tids a) 0) = alone p (apart a 0).
Proof.
  induction tids as [|t tids IH]; intros a p Hp Hm; [exists p; auto|]. cbn [arun fold_left]. change (fold_left astep tids (astep a t)) with (arun tids (astep a t)). unfold astep at 1 2. rewrite Hp.
  destruct t as [|t]; [|cbn; destruct t; apply IH; auto]. cbn [nth_error]. destruct p as [|l b k]; [apply IH; auto|]. inversion Hm as [|b' k' Hk E1]. subst. cbn [alone]. destruct (sect_run b (apart a 0)) as [s' r].
  destruct (IH (mkA (set (apart a) 0 s') (upd 0 (k r) [Sec 0 b k])) (k r) eq_refl (Hk r)) as (p' & A & B & C). exists p'. auto.
Qed.
Lemma py_mutex0 {M} (stamp : M -> nat) size ms : mutex0 (py_adds stamp size ms).
Proof.
  induction ms as [|m ms IH]; [constructor|]. cbn. constructor. intros _. constructor. intros _. constructor. intros len. destruct (Nat.ltb size len); [|exact IH]. constructor. intros _. constructor. intros _. exact IH.
Qed.
Lemma py_alone {M} (stamp : M -> nat) size ms : forall p, alone (py_adds stamp size ms) p = fold_left (py_add_alone stamp size) ms p.
Proof.
  induction ms as [|m ms IH]; intros p; [reflexivity|]. cbn -[Nat.ltb py_add_alone]. unfold py_add_alone at 2. cbn [fst snd]. destruct (Nat.ltb size (length (snd p ++ [m]))); cbn; apply IH.
Qed.
(** C81: one thread that adds messages gets what the calls do one after the other, under every
    schedule.  Not covered, and not true: several threads. *)
Theorem C81_one_thread_partial {M} (stamp : M -> nat) size ms sched c acq :
  exec sched (start (fun _ => ([], [])) (map (py_adds stamp size) [ms])) = (c, acq) -> finished c ->
  part c 0 = fold_left (py_add_alone stamp size) ms ([], []).
Proof.
  intros E F. pose proof (sim_exec _ _ _ _ _ (sim_start (fun _ => ([], [])) (map (py_adds stamp size) [ms])) E) as S. destruct (alone_arun (map fst acq) (mkA (fun _ => ([], [])) (map (py_adds stamp size) [ms])) (py_adds stamp size ms) eq_refl (py_mutex0 stamp size ms)) as (p' & A & _ & C).
  pose proof (idle_threads _ _ S (finished_idle _ F)) as Ht. rewrite A in Ht. assert (p' = Done) as ->. { specialize (F (Out p')). rewrite Ht in F. specialize (F (or_introl eq_refl)). congruence. }
  rewrite <- (idle_free _ _ S (finished_idle _ F) 0). exact (eq_trans C (py_alone stamp size ms _)).
Qed.
Example C81_one_thread_example : let e := exec (repeat 0 40) (start (fun _ => ([], [])) (map (py_adds (fun m => m) 2) [[5; 7; 9]])) in
  finished (fst e) /\ part (fst e) 0 = ([7; 9], [7; 9]).
Proof. split; [apply (repeat_finished 1); vm_compute; reflexivity|vm_compute; reflexivity]. Qed.

(** C81: two threads, one message each: their times and their messages are appended in different
    orders, so each message is stored with the time of the other one *)
Definition py_swap_schedule : list nat := [0; 0; 0; 1; 1; 1; 1; 1; 1; 0; 0; 0; 0; 0; 0; 1; 1; 1].
Notation py_program size := (start (fun _ => ([], [])) (map (py_adds (fun m : nat => m) size) [[1]; [2]])).
Notation py_swap := (exec py_swap_schedule (py_program 5)).
Theorem C81_pairs_refuted :
  ~ (forall sched c acq, exec sched (py_program 5) = (c, acq) -> finished c ->
     fst (part c 0) = snd (part c 0)).
Proof.
  intros H. specialize (H py_swap_schedule (fst py_swap) (snd py_swap) (surjective_pairing py_swap)). assert (E : part (fst py_swap) 0 = ([1; 2], [2; 1])) by (vm_compute; reflexivity). rewrite E in H.
  assert (N : [1; 2] = [2; 1]) by (apply H; apply (repeat_finished 2); vm_compute; reflexivity). discriminate N.
Qed.
(** C81: two threads add to an empty cache of size 1; both see two messages, both delete one: nothing
    is left although the cache never needed to drop the newest message *)
Definition py_lost_schedule : list nat := [0; 0; 0; 0; 0; 0; 1; 1; 1; 1; 1; 1; 0; 0; 0; 1; 1; 1; 0; 0; 0; 0; 0; 0; 1; 1; 1; 1; 1; 1].
Notation py_lost := (exec py_lost_schedule (py_program 1)).
Theorem C81_contents_refuted :
  ~ (forall sched c acq, exec sched (py_program 1) = (c, acq) -> finished c ->
     exists order, interleaving [[1]; [2]] order /\ part c 0 = fold_left (py_add_alone (fun m => m) 1) (map snd order) ([], [])).
Proof.
  intros H. specialize (H py_lost_schedule (fst py_lost) (snd py_lost) (surjective_pairing py_lost)). assert (E : part (fst py_lost) 0 = ([], [])) by (vm_compute; reflexivity). rewrite E in H.
  destruct H as (order & Hi & Hp); [apply (repeat_finished 2); vm_compute; reflexivity|]. clear E. apply interleaving_perm in Hi. cbn in Hi. revert Hp Hi. generalize (map snd order). intros l Hp Hi.
  pose proof (Permutation_length Hi) as Hl. destruct l as [|a [|b [|d l]]]; try discriminate Hl. cbn in Hp. discriminate Hp.
Qed.

Print Assumptions C58_equivalent_to_sequential.
Print Assumptions C58_equivalent_at_every_moment.
Print Assumptions C58_real_time.
Print Assumptions C58_can_finish.
Print Assumptions C58_exact_time.
Print Assumptions C58_exact_time_sets_match.
Print Assumptions C58_approximate_time.
Print Assumptions C58_approximate_epsilon_time.
Print Assumptions C58_latest_time.
Print Assumptions C58_input_aligner.
Print Assumptions C59_equivalent_to_sequential.
Print Assumptions C59_exactly_once.
Print Assumptions C59_can_finish.
Print Assumptions C59_one_input_partial.
Print Assumptions C59_order_refuted.
Print Assumptions C80_exactly_once.
Print Assumptions C80_one_dispatcher.
Print Assumptions C80_one_dispatcher_in_order.
Print Assumptions C80_refuted.
Print Assumptions C81_one_thread_partial.
Print Assumptions C81_pairs_refuted.
Print Assumptions C81_contents_refuted.
