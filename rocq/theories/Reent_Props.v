(** C114: callbacks that call the filter that calls them. *)
From Coq Require Import List Arith ZArith Lia Bool.
From Verif Require Import Base RclTime Trace Reent_Model Reent_Spec Reent_Proofs.
From Verif Require Cache_Model Cache_Spec Cache_Proofs Seq_Model Seq_Spec Seq_Proofs Seq_Props Aligner_Model Exact_Model Eps_Model Approx_Model Latest_Model.
Import ListNotations.

Section General.
Context {St Op Res Msg : Type}.
Variable body : St -> Op -> res (St * Res * list Msg).
Variable takes : Op -> bool.
Notation entry := (Op * Res * list Msg)%type.
Variable callback : list entry -> Msg -> prog Op Res.

(** Whatever the callbacks do: if no call blocks, all calls take effect one after the other, those of
    callbacks right after the call that signalled (before any later call of the user); every message signalled
    is given to the callbacks *)
Theorem C114_as_if_called_one_after_the_other held s h s' tr : run_re body takes held callback s [] h = Ok (s', tr) ->
  replay body s tr s' /\ nested callback [] h tr.
Proof. intros H. apply run_replay in H as (calls & -> & R & N). auto. Qed.

(** The filter's mutex held while signalling: a callback that starts with a method that locks it blocks for
    ever as soon as a message is signalled *)
Theorem C114_mutex_held_refuted s h s' tr : (forall tr' m, exists o k, callback tr' m = Call o k /\ takes o = true) ->
  replay body s tr s' -> calls tr = h -> signalled tr <> [] -> run_re body takes true callback s [] h = Err Deadlock.
Proof.
  intros C R E N. eapply run_loud; eauto.
  - intros s0 tr0 tr' m. destruct (C tr' m) as (o & k & -> & T). cbn. now rewrite T.
  - clear -N. unfold signalled in N. induction tr as [|[[o r] ms] tr IH]; [easy|]. destruct ms as [|m ms].
    + cbn in N. destruct (IH N) as (e & He & Hn). exists e. split; [now right|auto].
    + exists (o, r, m :: ms). split; [now left|discriminate].
Qed.
End General.

(** ** Cache *)
Section Cache.
Import Cache_Model Cache_Spec.
Context {E : Type} (stamp : E -> time).
Notation entry := (op E * out E * list E)%type.
Variable callback : list entry -> E -> prog (op E) (out E).
Notation run_re := (run_re (cache_body stamp) cache_takes false callback).
Definition not_add (o : op E) : Prop := match o with Add _ => False | _ => True end.

Lemma cache_silent o : not_add o -> silent (cache_body stamp) o.
Proof.
  intros N s s' r ms H. unfold cache_body in H.
  destruct o; try easy; cbn in H; unfold query in H; try (match type of H with context [match ?x with Ok _ => _ | Err _ => _ end] => destruct x; cbn in H end); congruence.
Qed.
Lemma only_mono {Op Res} (P Q : Op -> Prop) (p : prog Op Res) : (forall o, P o -> Q o) -> only P p -> only Q p.
Proof. intros HPQ. induction p as [|o k IH|k IH]; cbn; auto. intros [A B]. auto. Qed.
Definition nd {A} (r : res A) : Prop := r <> Err Deadlock.
Lemma nd_bind {A B} (r : res A) (k : A -> res B) : nd r -> (forall a, nd (k a)) -> nd (bind r k).
Proof. destruct r; cbn; auto. intros H _ X. apply H. now injection X as ->. Qed.
Lemma nd_ok {A} (a : A) : nd (Ok a).
Proof. discriminate. Qed.
Lemma nd_lt a b : nd (time_lt a b).
Proof. unfold nd, time_lt. destruct (clock_eqb _ _); discriminate. Qed.
Lemma nd_le a b : nd (time_le a b).
Proof. unfold nd, time_le. destruct (clock_eqb _ _); discriminate. Qed.
Lemma nd_pop c (l : list E) : nd (pop_while c l).
Proof. unfold nd. induction l as [|x l IH]; cbn; destruct (Nat.leb _ _); auto; discriminate. Qed.
Lemma nd_insert e rl : nd (insert_back stamp e rl).
Proof.
  induction rl as [|x rl IH]; cbn; [discriminate|]. apply nd_bind; [apply nd_lt|]. intros []; [apply nd_bind; auto|]; intros; apply nd_ok.
Qed.
Lemma nd_scan (p : E -> res bool) l k : (forall e, nd (p e)) -> forall i, nd (scan_up p l k i).
Proof.
  intros Hp. induction k as [|k IH]; intros i; cbn; [discriminate|]. destruct (nth_error l i); [|discriminate]. apply nd_bind; auto. intros []; auto. apply nd_ok.
Qed.
Lemma nd_start t l i : nd (surround_start stamp t l i).
Proof.
  induction i as [|i IH]; cbn [surround_start]; [discriminate|]. destruct (nth_error l _); [|discriminate]. apply nd_bind; [apply nd_lt|]. intros []; auto. apply nd_ok.
Qed.
Lemma nd_after t l n : forall x, nd (after_index stamp t l n x).
Proof.
  induction n as [|n IH]; intros x; cbn [after_index]; [discriminate|]. destruct (nth_error l _); [|discriminate]. apply nd_bind; [apply nd_lt|]. intros []; auto. apply nd_ok.
Qed.
Lemma cache_never_blocks : never_blocks (cache_body stamp).
Proof.
  assert (forall A (f : A -> out E) (s : state E) (r : res A), nd r -> (forall a, exists x, f a = x /\ match x with Failed _ => False | _ => True end) ->
            (let (s', x) := (s, query f r) in match x with Failed e => Err e | Forwarded e => Ok (s', x, [e]) | _ => Ok (s', x, []) end) <> Err Deadlock) as Hq.
  { intros A f s [a|e] Hr Hf; cbn.
    - destruct (Hf a) as (x & -> & Hx). destruct x; try discriminate. destruct Hx.
    - intros X. injection X as ->. now apply Hr. }
  intros s o. unfold cache_body. destruct o as [n|e|a b|a b|t|t| |]; cbn [step]; try discriminate; try (apply Hq; [|intros x; eexists; split; [reflexivity|exact I]]).
  - unfold add. destruct (cap s) as [c|]; [|discriminate]. pose proof (nd_pop c (contents s)) as H1. destruct (pop_while c (contents s)) as [l|x]; [|intros X; injection X as ->; now apply H1].
    pose proof (nd_insert e (rev l)) as H2. destruct (insert_back stamp e (rev l)) as [|x]; [discriminate|intros X; injection X as ->; now apply H2].
  - unfold getInterval. repeat (apply nd_bind; intros); try apply nd_ok; apply nd_scan; intros; apply nd_lt || apply nd_le.
  - unfold getSurroundingInterval. destruct (contents s); [apply nd_ok|]. repeat (apply nd_bind; intros); try apply nd_ok; [apply nd_start|]. apply nd_scan; intros; apply nd_lt.
  - unfold getElemBeforeTime. repeat (apply nd_bind; intros); try apply nd_ok. apply nd_scan; intros; apply nd_lt.
  - unfold getElemAfterTime. repeat (apply nd_bind; intros); try apply nd_ok. apply nd_after.
Qed.

Lemma cache_replay tr : forall s s', replay (cache_body stamp) s tr s' ->
  s' = fst (run stamp s (calls tr)) /\ map (fun e => snd (fst e)) tr = snd (run stamp s (calls tr)) /\
  signalled tr = forwarded (map (fun e => snd (fst e)) tr).
Proof.
  induction tr as [|[[o r] ms] tr IH]; intros s s' H; inversion H as [|? s1 ? ? ? ? ? B R]; subst; [auto|].
  apply IH in R as (-> & R2 & R3). unfold cache_body in B. change (calls ((o, r, ms) :: tr)) with (o :: calls tr). cbn [run map].
  destruct (step stamp s o) as [s2 x] eqn:St. assert (s2 = s1 /\ x = r /\ ms = forwarded [x]) as (-> & -> & ->).
  { destruct x; try discriminate; injection B as <- <- <-; auto. }
  destruct (run stamp s1 (calls tr)) as [s3 xs] eqn:Rn. cbn [fst snd] in *. split; [reflexivity|]. split; [now rewrite R2|].
  unfold signalled, forwarded in *. cbn. rewrite R3, app_nil_r. reflexivity.
Qed.
Lemma nested_signalled past (h : list (op E)) (tr : list entry) : nested callback past h tr -> (forall e, In e tr -> forall m, In m (snd e) -> fst (fst e) = Add m) ->
  (forall e, In e tr -> forall x, fst (fst e) = Add x -> snd e = [x]) -> signalled tr = added h.
Proof.
  unfold signalled. induction 1 as [|past o r ms calls0 h tr Q1 N IH]; intros A1 A2; cbn; auto. rewrite flat_map_app.
  replace (flat_map snd calls0) with (@nil E).
  2:{ symmetry. assert (forall e, In e calls0 -> snd e = []) as Q by (intros e He; eapply heard_silent; eauto). clear -Q. induction calls0 as [|c cs IH]; cbn; auto. rewrite (Q c (or_introl eq_refl)). apply IH. intros e He. apply Q. now right. }
  cbn. rewrite IH; [|intros e He; apply A1; right; apply in_or_app; auto|intros e He; apply A2; right; apply in_or_app; auto]. f_equal.
  destruct ms as [|m ms].
  - destruct o; auto. specialize (A2 _ (or_introl eq_refl) e eq_refl). discriminate.
  - pose proof (A1 _ (or_introl eq_refl) m (or_introl eq_refl)) as X. cbn in X. subst o. exact (A2 _ (or_introl eq_refl) m eq_refl).
Qed.
Lemma cache_body_adds s o s' r ms : cache_body stamp s o = Ok (s', r, ms) -> (forall m, In m ms -> o = Add m) /\ (forall x, o = Add x -> ms = [x]).
Proof.
  intros H. destruct o as [|e| | | | | |].
  2:{ unfold cache_body, step, add in H. destruct (cap s); [|discriminate]. destruct (pop_while _ _); [|discriminate]. destruct (insert_back _ _ _); [|discriminate].
      injection H as _ _ <-. split; [now intros m [->|[]]|now intros x [= ->]]. }
  all: apply cache_silent in H; [subst; split; [intros ? []|discriminate]|exact I].
Qed.
Lemma replay_in {St Op Res Msg} (body : St -> Op -> res (St * Res * list Msg)) s tr s' e : replay body s tr s' -> In e tr ->
  exists s1 s2, body s1 (fst (fst e)) = Ok (s2, snd (fst e), snd e).
Proof. induction 1; intros []; subst; eauto. Qed.

(** Callbacks may query the cache and change its size; they never block, every message of the user is passed on
    exactly once and in order, and every call is answered on what all earlier ones left, including the
    message just added *)
Theorem C114_cache_callbacks_query n h : (forall tr m, only not_add (callback tr m)) ->
  (run_re (ctor n) [] h <> Err Deadlock) /\
  forall s tr, run_re (ctor n) [] h = Ok (s, tr) ->
    signalled tr = added h /\ s = final stamp n (calls tr) /\
    forall pre o r ms post, tr = pre ++ (o, r, ms) :: post -> r = snd (step stamp (final stamp n (calls pre)) o).
Proof.
  intros Q. split.
  - apply run_nb; auto.
    + apply cache_never_blocks.
    + intros tr m. eapply only_mono; [|apply Q]. apply cache_silent.
  - intros s tr H. apply C114_as_if_called_one_after_the_other in H as [R N]. split; [|split].
    + eapply nested_signalled; eauto; intros e He; destruct (replay_in _ _ _ _ _ R He) as (s1 & s2 & B); apply cache_body_adds in B as [B1 B2]; eauto.
    + now apply cache_replay in R as (-> & _).
    + intros pre o r ms post ->. clear N. unfold final. remember (ctor n) as s0 eqn:E0. clear E0. revert s0 R.
      induction pre as [|[[o' r'] ms'] pre IH]; intros s0 R; inversion R as [|? s1 ? ? ? ? ? B R']; subst; unfold cache_body in B.
      * cbn. destruct (step stamp s0 o) as [s2 x]. cbn. destruct x; try discriminate; now injection B as _ <- _.
      * change (calls ((o', r', ms') :: pre)) with (o' :: calls pre). cbn [run]. destruct (step stamp s0 o') as [s2 x] eqn:St. assert (s2 = s1) as -> by (destruct x; try discriminate; now injection B as -> _ _).
        rewrite (IH _ R'). now destruct (run stamp s1 (calls pre)).
Qed.

(** A callback that adds a message to the cache that calls it blocks for ever *)
Theorem C114_cache_add_refuted k n h e h' : 0 < n -> one_clock stamp k (h ++ Add e :: h') ->
  (forall tr m, exists e' c, clk (stamp e') = k /\ callback tr m = Call (Add e') c) ->
  run_re (final stamp n h) [] (Add e :: h') = Err Deadlock.
Proof.
  intros Hn HO C. assert (one_clock stamp k h) as HO1 by (intros x Hx; apply HO; rewrite Cache_Proofs.added_app; apply in_or_app; auto).
  assert (clk (stamp e) = k) as He by (apply HO; rewrite Cache_Proofs.added_app; apply in_or_app; right; now left).
  assert (forall s e, Cache_Proofs.Inv stamp s -> (exists c, cap s = Some c /\ 0 < c) -> Cache_Proofs.all_clk stamp k (contents s) -> clk (stamp e) = k ->
            exists s', cache_body stamp s (Add e) = Ok (s', Forwarded e, [e]) /\ s' = fst (step stamp s (Add e))) as A.
  { intros s x (_ & HS & _) (c & Hc & Hp) HA Hx. unfold cache_body. cbn [step]. rewrite (Cache_Proofs.add_spec stamp k c s x); auto. eauto. }
  destruct (Cache_Proofs.capacity_some n h Hn) as (c & Hc & Hp).
  destruct (A (final stamp n h) e) as (s1 & B1 & E1); auto using Cache_Proofs.final_inv, Cache_Proofs.final_one_clock.
  { exists c. rewrite Cache_Proofs.final_cap. destruct n; [lia|auto]. }
  cbn [Reent_Model.run_re]. rewrite B1. cbn [bind Reent_Model.signal]. match goal with |- context [callback ?t ?m] => destruct (C t m) as (e' & k' & He' & ->) end. cbn [Reent_Model.inside]. rewrite andb_false_r.
  rewrite <- Cache_Proofs.final_snoc in E1. subst s1.
  destruct (A (final stamp n (h ++ [Add e])) e') as (s2 & B2 & _); auto using Cache_Proofs.final_inv.
  - destruct (Cache_Proofs.capacity_some n (h ++ [Add e]) Hn) as (c' & Hc' & Hp'). exists c'. rewrite Cache_Proofs.final_cap. destruct n; [lia|auto].
  - apply Cache_Proofs.final_one_clock. intros x Hx. apply HO. rewrite Cache_Proofs.added_app in Hx |- *. apply in_app_or in Hx as [Hx|Hx]; apply in_or_app; [auto|]. right. cbn in Hx. destruct Hx as [->|[]]. now left.
  - rewrite B2. reflexivity.
Qed.
End Cache.

(** ** TimeSequencer *)
Section Seq.
Import Seq_Model Seq_Spec.
Context {E : Type} (stamp : E -> time).
Notation entry := (op E * unit * list E)%type.
Variable callback : list entry -> E -> prog (op E) unit.
Variable q : nat.
Variable d : Z.
Notation run_re := (run_re (seq_body stamp q d) (fun _ => true) false callback).
Definition is_add (o : op E) : Prop := match o with Add _ => True | _ => False end.

Lemma seq_replay tr : forall s s', replay (seq_body stamp q d) s tr s' -> run stamp q d s (calls tr) = Ok (s', signalled tr).
Proof.
  induction tr as [|[[o r] ms] tr IH]; intros s s' H; inversion H as [|? s1 ? ? ? ? ? B R]; subst; [auto|].
  change (calls ((o, r, ms) :: tr)) with (o :: calls tr). change (signalled ((o, r, ms) :: tr)) with (ms ++ signalled tr). cbn [run].
  unfold seq_body in B. destruct (step stamp q d s o) as [[s2 x]|]; [|discriminate]. cbn in B. injection B as -> _ ->. cbn. rewrite (IH _ _ R). reflexivity.
Qed.
Lemma seq_step_ok s o : system_stamps stamp -> (exists h outs, run stamp q d init h = Ok (s, outs)) ->
  exists s' ms, step stamp q d s o = Ok (s', ms) /\ (exists h outs, run stamp q d init h = Ok (s', outs)).
Proof.
  intros Hs (h & outs & R). destruct (Seq_Proofs.run_rinv stamp q d Hs (h ++ [o])) as (s' & o' & R' & _). pose proof R' as R''. rewrite Seq_Proofs.run_snoc, R in R''. cbn in R''.
  destruct (step stamp q d s o) as [[s1 ms]|]; [|discriminate]. cbn in R''. injection R'' as -> _. exists s', ms. split; auto. exists (h ++ [o]), o'. auto.
Qed.

(** Callbacks may add messages to the TimeSequencer that calls them: nothing blocks or fails, and the messages
    passed on are in order, as if the callbacks' messages had been added after the tick *)
Theorem C114_sequencer_callbacks_add h : system_stamps stamp -> (forall tr m, only is_add (callback tr m)) ->
  exists s tr, run_re init [] h = Ok (s, tr) /\ nested callback [] h tr /\
    run stamp q d init (calls tr) = Ok (s, signalled tr) /\ nondecreasing (fun e => ns (stamp e)) (signalled tr).
Proof.
  intros Hs Q. destruct (run_total (seq_body stamp q d) (fun _ => true) false callback (fun s => exists h outs, run stamp q d init h = Ok (s, outs)) (fun _ => True)) with (h := h) (s := @init E) (tr := @nil entry) as (s & tr & R & _); auto.
  - intros s o HI _. destruct (seq_step_ok s o Hs HI) as (s' & ms & E1 & HI'). exists s', tt, ms. unfold seq_body. rewrite E1. auto.
  - intros tr m. eapply only_mono; [|apply Q]. intros [e|nows] Ho; [|destruct Ho]. split; auto. intros s s' r ms H. unfold seq_body in H. cbn in H.
    destruct (add stamp q s e); [|discriminate]. cbn in H. congruence.
  - exists [], []. reflexivity.
  - exists s, tr. split; auto. apply C114_as_if_called_one_after_the_other in R as [R N]. split; auto. apply seq_replay in R. split; auto. eapply Seq_Props.C39_seq_ordered; eauto.
Qed.
End Seq.

(** ** InputAligner and the synchronizer policies: the mutex is held *)
(** The callback starts by calling a method that locks the mutex (e.g. adding a message; for InputAligner anything
    but setInputPeriod) *)
Definition starts_with_lock {Op Res Msg : Type} (takes : Op -> bool) (callback : list (Op * Res * list Msg) -> Msg -> prog Op Res) : Prop :=
  forall tr m, exists o k, callback tr m = Call o k /\ takes o = true.
Theorem C114_aligner_refuted {E} (stamp : E -> Z) timeout s h s' tr callback :
  (forall tr0 m, exists o k, callback tr0 m = Call o k /\ forall i p, o <> Aligner_Model.SetPeriod i p) ->
  replay (aligner_body stamp timeout) s tr s' -> calls tr = h -> signalled tr <> [] ->
  run_re (aligner_body stamp timeout) aligner_takes true callback s [] h = Err Deadlock.
Proof.
  intros C. eapply C114_mutex_held_refuted; eauto. intros tr0 m. destruct (C tr0 m) as (o & k & -> & N). exists o, k. split; auto. destruct o; auto. now destruct (N i p).
Qed.
Theorem C114_exact_refuted {E} (stamp : E -> Z) n q s h s' tr callback : starts_with_lock (fun _ => true) callback ->
  replay (exact_body stamp n q) s tr s' -> calls tr = h -> signalled tr <> [] ->
  run_re (exact_body stamp n q) (fun _ => true) true callback s [] h = Err Deadlock.
Proof. intros. eapply C114_mutex_held_refuted; eauto. Qed.
Theorem C114_epsilon_refuted {E} (stamp : E -> Z) n q eps s h s' tr callback : starts_with_lock (fun _ => true) callback ->
  replay (eps_body stamp n q eps) s tr s' -> calls tr = h -> signalled tr <> [] ->
  run_re (eps_body stamp n q eps) (fun _ => true) true callback s [] h = Err Deadlock.
Proof. intros. eapply C114_mutex_held_refuted; eauto. Qed.
Theorem C114_approximate_refuted {E} (stamp : E -> Z) c s h s' tr callback : starts_with_lock (fun _ => true) callback ->
  replay (approx_body stamp c) s tr s' -> calls tr = h -> signalled tr <> [] ->
  run_re (approx_body stamp c) (fun _ => true) true callback s [] h = Err Deadlock.
Proof. intros. eapply C114_mutex_held_refuted; eauto. Qed.
Theorem C114_latest_refuted {E D} (f : Latest_Model.fops D) n c (s : Latest_Model.state E D) h s' tr callback :
  (forall tr0 m, exists i e now k, callback tr0 m = Call (Latest_Model.Add i e now) k) ->
  replay (latest_body f n c) s tr s' -> calls tr = h -> signalled tr <> [] ->
  run_re (latest_body f n c) latest_takes true callback s [] h = Err Deadlock.
Proof. intros C. eapply C114_mutex_held_refuted; eauto. intros tr0 m. destruct (C tr0 m) as (i & e & now & k & ->). do 2 eexists. split; reflexivity. Qed.

(** ** Examples *)
Module Ex.
  Open Scope Z_scope.
  Definition st (z : Z) : time := mkTime z SystemClock.
  (** a tick at 100 with delay 10 delivers 10 and 20; the callback for 10 adds 15 and 25 *)
  Definition back (tr : list (Seq_Model.op Z * unit * list Z)) (m : Z) : prog (Seq_Model.op Z) unit :=
    if m =? 10 then Call (Seq_Model.Add 15) (fun _ => Call (Seq_Model.Add 25) (fun _ => Ret)) else Ret.
  Definition at_ (t : Z) : Seq_Model.op Z := Seq_Model.Tick (fun _ => t).
  Definition h : list (Seq_Model.op Z) := [Seq_Model.Add 20; Seq_Model.Add 10; at_ 100; at_ 200].
End Ex.
Example C114_sequencer_nonvacuous :
  Seq_Spec.system_stamps Ex.st /\ (forall tr m, only is_add (Ex.back tr m)) /\
  run_re (seq_body Ex.st 0 10) (fun _ => true) false Ex.back Seq_Model.init [] Ex.h =
    Ok (Seq_Model.mkState [] (Ex.st 25),
        [(Seq_Model.Add 20, tt, []); (Seq_Model.Add 10, tt, []); (Ex.at_ 100, tt, [10; 20]); (Seq_Model.Add 15, tt, []); (Seq_Model.Add 25, tt, []);
         (Ex.at_ 200, tt, [25])])%Z.
Proof. split; [intros z; reflexivity|]. split; [|reflexivity]. intros tr m. unfold Ex.back. destruct (m =? 10)%Z; cbn; auto. Qed.

(** But a message the callback adds can be thrown away although it is newer than everything delivered when it
    is added: the callback is handling the message stamped 10, adds 15, and 15 is never delivered *)
Theorem C114_sequencer_keeps_newer_refuted : exists (stamp : Z -> time) q d callback h s pre nows m more e post,
  Seq_Spec.system_stamps stamp /\ (forall tr x, x <> m -> callback tr x = Ret) /\ (ns (stamp m) < ns (stamp e))%Z /\ q = 0 /\
  let tr := pre ++ (Seq_Model.Tick nows, tt, m :: more) :: (Seq_Model.Add e, tt, []) :: post in
  run_re (seq_body stamp q d) (fun _ => true) false callback Seq_Model.init [] h = Ok (s, tr) /\
  signalled pre = [] /\ ~ In e (signalled tr) /\ ~ In e (Seq_Model.messages s).
Proof.
  exists Ex.st, 0, 10%Z, Ex.back, Ex.h. eexists. exists [(Seq_Model.Add 20%Z, tt, []); (Seq_Model.Add 10%Z, tt, [])], (fun _ => 100%Z), 10%Z, [20%Z], 15%Z. eexists. cbv zeta.
  split; [intros z; reflexivity|]. split; [intros tr x Hx; unfold Ex.back; now destruct (Z.eqb_spec x 10)|]. split; [reflexivity|]. split; [reflexivity|].
  split; [exact (proj2 (proj2 C114_sequencer_nonvacuous))|]. cbn. intuition lia.
Qed.

(** A cache: the callback asks for the latest time and for what is stored before the message *)
Definition ex_look (tr : list (Cache_Model.op Z * Cache_Model.out Z * list Z)) (m : Z) : prog (Cache_Model.op Z) (Cache_Model.out Z) :=
  Call Cache_Model.GetLatest (fun r => match r with Cache_Model.TimeOut t => Call (Cache_Model.GetBefore t) (fun _ => Ret) | _ => Ret end).
Example C114_cache_nonvacuous : (forall tr m, only not_add (ex_look tr m)) /\
  run_re (cache_body Ex.st) cache_takes false ex_look (Cache_Model.ctor 2) [] [Cache_Model.Add 5; Cache_Model.Add 3]%Z =
    Ok (Cache_Model.mkState (Some 2) [3; 5]%Z,
        [(Cache_Model.Add 5, Cache_Model.Forwarded 5, [5]); (Cache_Model.GetLatest, Cache_Model.TimeOut (Ex.st 5), []); (Cache_Model.GetBefore (Ex.st 5), Cache_Model.Elem None, []);
         (Cache_Model.Add 3, Cache_Model.Forwarded 3, [3]); (Cache_Model.GetLatest, Cache_Model.TimeOut (Ex.st 5), []); (Cache_Model.GetBefore (Ex.st 5), Cache_Model.Elem (Some 3), [])]%Z).
Proof. split; [|reflexivity]. intros tr m. cbn. split; auto. intros []; cbn; auto. Qed.
Example C114_cache_add_nonvacuous :
  run_re (cache_body Ex.st) cache_takes false (fun _ m => Call (Cache_Model.Add (m + 1)%Z) (fun _ => Ret)) (Cache_Model.ctor 2) [] [Cache_Model.Add 5%Z] = Err Deadlock.
Proof.
  apply (C114_cache_add_refuted Ex.st _ SystemClock 2 [] 5%Z []); auto; [intros e He; reflexivity|]. intros tr m. do 2 eexists. split; [|reflexivity]. reflexivity.
Qed.
(** An ExactTime synchronizer whose callback adds to it *)
Example C114_exact_nonvacuous :
  run_re (exact_body (fun z => z) 2 0) (fun _ => true) true (fun _ _ => Call (0, 9%Z) (fun _ => Ret)) Exact_Model.init [] [(0, 1%Z); (1, 1%Z)] = Err Deadlock.
Proof.
  eapply C114_exact_refuted with (tr := [((0, 1%Z), tt, []); ((1, 1%Z), tt, [Exact_Model.Signal [1%Z; 1%Z]])]); [intros tr m; do 2 eexists; split; reflexivity| | |].
  - econstructor; [reflexivity|]. econstructor; [reflexivity|]. constructor.
  - reflexivity.
  - discriminate.
Qed.
(** An InputAligner whose callback adds to it *)
Example C114_aligner_nonvacuous :
  let body := aligner_body (fun z : Z => z) 10%Z in let h := [Aligner_Model.Add 0 1%Z; Aligner_Model.Add 1 2%Z; Aligner_Model.Dispatch] in
  (exists s tr, replay body (Aligner_Model.init 2) tr s /\ calls tr = h /\ signalled tr <> []) /\
  run_re body aligner_takes true (fun _ _ => Call (Aligner_Model.Add 0 9%Z) (fun _ => Ret)) (Aligner_Model.init 2) [] h = Err Deadlock.
Proof.
  cbv zeta. split; [|vm_compute; reflexivity].
  eexists. exists [(Aligner_Model.Add 0 1%Z, tt, []); (Aligner_Model.Add 1 2%Z, tt, []); (Aligner_Model.Dispatch, tt, [(0, 1%Z)])]. split; [econstructor; [vm_compute; reflexivity|]; econstructor; [vm_compute; reflexivity|]; econstructor; [vm_compute; reflexivity|]; constructor|]. split; [reflexivity|]. discriminate.
Qed.

(** A LatestTime synchronizer of one input whose callback adds to it; one whose callback does nothing passes on two sets *)
Example C114_latest_nonvacuous :
  let f : Latest_Model.fops Z := Latest_Model.mkFops Z 0%Z 1%Z Z.add Z.sub Z.mul Z.div Z.abs Z.gtb Z.leb Z.eqb (fun z => z) in
  let c := Latest_Model.mkConfig 1%Z 1%Z 10%Z in
  let body := latest_body (E := Z) f 1 c in
  let h := [Latest_Model.Add 0 7%Z (Ex.st 1); Latest_Model.Add 0 8%Z (Ex.st 2)] in
  (exists s tr, run_re body latest_takes true (fun _ _ => Ret) (Latest_Model.init 1) [] h = Ok (s, tr) /\ signalled tr = [[8%Z]]) /\
  run_re body latest_takes true (fun _ _ => Call (Latest_Model.Add 0 9%Z (Ex.st 2)) (fun _ => Ret)) (Latest_Model.init 1) [] h = Err Deadlock.
Proof. cbv zeta. split; [do 2 eexists; split; vm_compute; reflexivity|vm_compute; reflexivity]. Qed.

Print Assumptions C114_as_if_called_one_after_the_other.
Print Assumptions C114_mutex_held_refuted.
Print Assumptions C114_cache_callbacks_query.
Print Assumptions C114_cache_add_refuted.
Print Assumptions C114_sequencer_callbacks_add.
Print Assumptions C114_sequencer_keeps_newer_refuted.
Print Assumptions C114_aligner_refuted.
Print Assumptions C114_exact_refuted.
Print Assumptions C114_epsilon_refuted.
Print Assumptions C114_approximate_refuted.
Print Assumptions C114_latest_refuted.
