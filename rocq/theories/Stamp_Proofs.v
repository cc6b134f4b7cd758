(** Messages without a valid time: Cache, TimeSequencer, InputAligner, ExactTime. *)
From Coq Require Import List Arith ZArith Lia Bool.
From Verif Require Import Base RclTime Trace Stamp_Model Stamp_Spec.
From Verif Require Cache_Model Seq_Model Aligner_Model Exact_Model.
Import ListNotations.
Local Open Scope Z_scope.

Lemma emitted_cons {O} c (tr : list (list O * bool)) : emitted (c :: tr) = fst c ++ emitted tr.
Proof. reflexivity. Qed.

Lemma emitted_app {O} (a b : list (list O * bool)) : emitted (a ++ b) = emitted a ++ emitted b.
Proof. unfold emitted. apply flat_map_app. Qed.

Lemma run_x_app {S I O} (step : S -> I -> res (S * list O * bool)) s h1 h2 :
  run_x step s (h1 ++ h2) =
  do '(s1, tr1) <- run_x step s h1;
  do '(s2, tr2) <- run_x step s1 h2;
  Ok (s2, tr1 ++ tr2).
Proof.
  revert s; induction h1 as [|x h1 IH]; intros s; cbn [app run_x bind].
  - destruct (run_x step s h2) as [[s2 tr2]|]; reflexivity.
  - destruct (step s x) as [[[s1 o] b]|]; cbn [bind]; auto. rewrite IH.
    destruct (run_x step s1 h1) as [[s2 tr1]|]; cbn [bind]; auto.
    destruct (run_x step s2 h2) as [[s3 tr2]|]; reflexivity.
Qed.

Section Generic.
Context {E T S I O : Type} (stamp : E -> option T) (message : I -> option E).
Context (step_x : S -> I -> res (S * list O * bool)) (step : S -> I -> res (S * list O))
        (run : S -> list I -> res (S * list O)).
Hypothesis run_nil : forall s, run s [] = Ok (s, []).
Hypothesis run_cons : forall s x h, run s (x :: h) =
  do '(s1, o1) <- step s x; do '(s2, o2) <- run s1 h; Ok (s2, o1 ++ o2).
Variable Inv : S -> Prop.
Variable Pre : I -> Prop.
Hypothesis reject : forall s x, Inv s -> Pre x -> adds_invalid stamp message x = true -> step_x s x = Ok (s, [], true).
Hypothesis accept : forall s x, Inv s -> Pre x -> adds_invalid stamp message x = false ->
  match step s x with
  | Ok (s', o) => step_x s x = Ok (s', o, false) /\ Inv s'
  | Err e => step_x s x = Err e
  end.

Lemma transparent_run s h : Inv s -> (forall x, In x h -> Pre x) ->
  match run s (without_invalid stamp message h) with
  | Ok (s', outs) => Inv s' /\ exists tr, run_x step_x s h = Ok (s', tr) /\ emitted tr = outs /\
      only_invalid_throw stamp message h tr
  | Err e => run_x step_x s h = Err e
  end.
Proof.
  revert s; induction h as [|x h IH]; intros s HI HP; cbn [without_invalid filter].
  - rewrite run_nil. split; auto. exists []. cbn. repeat split; auto. constructor.
  - cbn [run_x]. destruct (adds_invalid stamp message x) eqn:Ex; cbn [negb].
    + rewrite reject by (auto; apply HP; cbn; auto). cbn [bind]. specialize (IH s HI ltac:(cbn in HP; auto)).
      fold (without_invalid stamp message h).
      destruct (run s (without_invalid stamp message h)) as [[s' outs]|]; [|now rewrite IH].
      destruct IH as (HI' & tr & E1 & E2 & E3). split; auto. rewrite E1. cbn [bind]. eexists. split; [reflexivity|].
      split; auto. constructor; auto. now rewrite Ex.
    + fold (without_invalid stamp message h). rewrite run_cons.
      pose proof (accept s x HI (HP x (or_introl eq_refl)) Ex) as HA.
      destruct (step s x) as [[s1 o1]|]; [|now rewrite HA]. destruct HA as (-> & HI1). cbn [bind].
      specialize (IH s1 HI1 ltac:(cbn in HP; auto)).
      destruct (run s1 (without_invalid stamp message h)) as [[s2 o2]|]; cbn [bind]; [|now rewrite IH].
      destruct IH as (HI' & tr & E1 & E2 & E3). split; auto. rewrite E1. cbn [bind]. eexists. split; [reflexivity|].
      rewrite emitted_cons, E2. cbn [fst]. split; auto. constructor; auto. now rewrite Ex.
Qed.
End Generic.

(** ** ExactTime *)
Section Exact.
Import Exact_Model.
Context {E : Type} (stamp : E -> option Z) (n queue_size : nat) (f : E -> Z).
Hypothesis Hf : agrees stamp f.

Definition all_valid_t (t : list (option E)) : Prop := forall e, In (Some e) t -> valid stamp e.
Definition exact_inv (s : state E) : Prop := forall k t, In (k, t) (tuples s) -> all_valid_t t.

Lemma upd_in {A} i (x y : A) l : In y (upd i x l) -> y = x \/ In y l.
Proof.
  revert i; induction l as [|h l IH]; intros [|i]; cbn; auto.
  - intros [->|H]; auto.
  - intros [->|H]; auto. destruct (IH i H); auto.
Qed.

Lemma all_valid_upd i e t : valid stamp e -> all_valid_t t -> all_valid_t (upd i (Some e) t).
Proof. intros He Ht x Hx. apply upd_in in Hx as [Hx|Hx]; [injection Hx as ->; auto|auto]. Qed.

Lemma all_valid_empty : all_valid_t (empty_tuple n).
Proof. intros e H. apply repeat_spec in H. discriminate. Qed.

Lemma put_valid k i e m m' t' : valid stamp e -> (forall k t, In (k, t) m -> all_valid_t t) ->
  put n k i e m = (m', t') -> (forall k t, In (k, t) m' -> all_valid_t t) /\ all_valid_t t'.
Proof.
  intros He. revert m' t'; induction m as [|[k0 t0] m IH]; intros m' t' Hm; cbn [put].
  - intros [= <- <-]. assert (all_valid_t (upd i (Some e) (empty_tuple n))) as H.
    { apply all_valid_upd; auto. apply all_valid_empty. }
    split; auto. intros k' t [[= <- <-]|[]]; auto.
  - destruct (k <? k0).
    { intros [= <- <-]. assert (all_valid_t (upd i (Some e) (empty_tuple n))) as H.
      { apply all_valid_upd; auto. apply all_valid_empty. }
      split; auto. intros k' t [[= <- <-]|Hin]; eauto. }
    destruct (k =? k0).
    { intros [= <- <-]. assert (all_valid_t (upd i (Some e) t0)) as H.
      { apply all_valid_upd; auto. eapply Hm. left; reflexivity. }
      split; auto. intros k' t [[= <- <-]|Hin]; auto. eapply Hm. right; eauto. }
    destruct (put n k i e m) as [m1 t1] eqn:Ep. intros [= <- <-].
    destruct (IH m1 t1) as (A & B); auto. { intros k' t Hin. eapply Hm. right; eauto. }
    split; auto. intros k' t [[= <- <-]|Hin]; [eapply Hm; left; reflexivity|eauto].
Qed.

Lemma full_in (t : list (option E)) l e : full t = Some l -> In e l -> In (Some e) t.
Proof.
  revert l; induction t as [|[x|] t IH]; cbn; intros l; [intros [= <-] []| |discriminate].
  destruct (full t) as [l'|]; [|discriminate]. intros [= <-] [->|H]; auto. right. eapply IH; eauto.
Qed.

Lemma split_incl k m a b : split_upper_bound (E := E) k m = (a, b) -> incl b m.
Proof.
  revert a b; induction m as [|[k' t] m IH]; cbn; intros a b.
  - intros [= <- <-]. apply incl_refl.
  - destruct (k' <=? k).
    + destruct (split_upper_bound k m) as [a' b'] eqn:Es. intros [= <- <-]. apply incl_tl. eapply IH; eauto.
    + intros [= <- <-]. apply incl_refl.
Qed.

Lemma checkTuple_x_ok t s : all_valid_t t -> exact_inv s ->
  let '(s', o) := checkTuple f queue_size t s in
  checkTuple_x stamp queue_size t s = (s', o, false) /\ exact_inv s'.
Proof.
  intros Ht Hs. unfold checkTuple, checkTuple_x.
  assert (forall d s0, exact_inv s0 -> exact_inv (mkState (skipn d (tuples s0)) (last_signal_time s0))) as Hskip.
  { intros d s0 H0 k t' Hin. cbn in Hin. apply (H0 k t').
    rewrite <- (firstn_skipn d (tuples s0)). apply in_or_app. auto. }
  assert (forall s1 o1, exact_inv s1 ->
    let '(s', o) := (if (0 <? queue_size)%nat && (queue_size <? length (tuples s1))%nat
     then (mkState (skipn (length (tuples s1) - queue_size) (tuples s1)) (last_signal_time s1),
           o1 ++ drops (firstn (length (tuples s1) - queue_size) (tuples s1)))
     else (s1, o1)) in
    (if (0 <? queue_size)%nat && (queue_size <? length (tuples s1))%nat
     then (mkState (skipn (length (tuples s1) - queue_size) (tuples s1)) (last_signal_time s1),
           o1 ++ drops (firstn (length (tuples s1) - queue_size) (tuples s1)), false)
     else (s1, o1, false)) = (s', o, false) /\ exact_inv s') as Htrim.
  { intros s1 o1 H1. destruct (_ && _); auto. }
  destruct (full t) as [[|e0 rest]|] eqn:Ef; try (apply Htrim; auto).
  destruct (stamp e0) as [k|] eqn:Ek.
  2:{ exfalso. apply (Ht e0); auto. eapply full_in; eauto. now left. }
  rewrite (Hf e0 k Ek). destruct (split_upper_bound k (erase k (tuples s))) as [old keep] eqn:Es.
  apply Htrim. intros k' t' Hin. cbn in Hin. apply (split_incl _ _ _ _ Es) in Hin.
  unfold erase in Hin. apply filter_In in Hin as [Hin _]. eauto.
Qed.

Lemma exact_transparent s h : exact_inv s ->
  exists tr, run_x (exact_add_x stamp n queue_size) s h =
      Ok (fst (run f n queue_size s (without_invalid stamp added h)), tr) /\
    emitted tr = snd (run f n queue_size s (without_invalid stamp added h)) /\
    only_invalid_throw stamp added h tr /\ exact_inv (fst (run f n queue_size s (without_invalid stamp added h))).
Proof.
  intros HI.
  pose proof (transparent_run stamp added (exact_add_x stamp n queue_size)
    (fun s x => Ok (add f n queue_size s x)) (fun s h => Ok (run f n queue_size s h))) as H.
  assert (let r := run f n queue_size s (without_invalid stamp added h) in
     exact_inv (fst r) /\ exists tr, run_x (exact_add_x stamp n queue_size) s h = Ok (fst r, tr) /\ emitted tr = snd r /\ only_invalid_throw stamp added h tr) as G.
  { cbn zeta. specialize (H ltac:(reflexivity)). specialize (H ltac:(
      intros s0 x h0; cbn [run bind]; destruct (add f n queue_size s0 x) as [s1 o1];
      destruct (run f n queue_size s1 h0); reflexivity)).
    specialize (H exact_inv (fun _ => True)).
    assert (forall (s0 : state E) x, exact_inv s0 -> True -> adds_invalid stamp added x = true ->
      exact_add_x stamp n queue_size s0 x = Ok (s0, [], true)) as R.
    { intros s0 [i e] _ _ Ha. unfold exact_add_x. unfold adds_invalid in Ha. cbn in Ha. destruct (stamp e); [discriminate|reflexivity]. }
    specialize (H R).
    assert (forall (s0 : state E) x, exact_inv s0 -> True -> adds_invalid stamp added x = false ->
      let (s', o) := add f n queue_size s0 x in exact_add_x stamp n queue_size s0 x = Ok (s', o, false) /\ exact_inv s') as A.
    { intros s0 [i e] Hs0 _ Ha. unfold exact_add_x, add. unfold adds_invalid in Ha. cbn in Ha.
      destruct (stamp e) as [k|] eqn:Ek; [|discriminate]. rewrite (Hf e k Ek).
      destruct (put n k i e (tuples s0)) as [m t] eqn:Ep.
      destruct (put_valid k i e (tuples s0) m t) as (P1 & P2); auto. { unfold valid. congruence. }
      pose proof (checkTuple_x_ok t (mkState m (last_signal_time s0)) P2 P1) as HC.
      destruct (checkTuple f queue_size t (mkState m (last_signal_time s0))) as [s' o]. destruct HC as (-> & HC). auto. }
    specialize (H A s h HI (fun _ _ => I)). cbn beta iota in H.
    destruct (run f n queue_size s (without_invalid stamp added h)) as [s' o]. exact H. }
  destruct G as (G1 & tr & G2 & G3 & G4). exists tr. auto.
Qed.

Lemma exact_init_inv : exact_inv init.
Proof. intros k t []. Qed.
End Exact.

(** ** InputAligner *)
Section Aligner.
Import Aligner_Model.
Context {E : Type} (stamp : E -> option Z) (timeout : Z) (f : E -> Z).
Hypothesis Hf : agrees stamp f.

Definition q_valid (q : queue E) : Prop := Forall (valid stamp) (evs q).
Definition al_inv (s : state E) : Prop := Forall q_valid (queues s).

Lemma valid_some e : valid stamp e -> stamp e = Some (f e).
Proof. unfold valid. intros H. destruct (stamp e) eqn:Ee; [|congruence]. now rewrite (Hf _ _ Ee). Qed.

Lemma al_ins_ok e l : valid stamp e -> Forall (valid stamp) l ->
  aligner_ins_x stamp (f e) e l = Some (ins f e l) /\ Forall (valid stamp) (ins f e l).
Proof.
  intros He. induction 1 as [|x l Hx Hl IH]; cbn; auto.
  rewrite (valid_some x Hx). destruct (f e <? f x); auto.
  destruct IH as (-> & IH). auto.
Qed.

Lemma fts_ok q : q_valid q -> first_time_stamp_x stamp q = (fst (first_time_stamp f q), Some (snd (first_time_stamp f q))) /\
  q_valid (fst (first_time_stamp f q)).
Proof.
  unfold q_valid, first_time_stamp_x, first_time_stamp. intros H. destruct (evs q) as [|e l] eqn:Eq.
  - destruct (active q); cbn; rewrite Eq; auto.
  - inversion H; subst. rewrite valid_some by auto. cbn. auto.
Qed.

Lemma ftss_ok qs : Forall q_valid qs ->
  first_time_stamps_x stamp qs = (map fst (map (first_time_stamp f) qs), Some (map snd (map (first_time_stamp f) qs))) /\
  Forall q_valid (map fst (map (first_time_stamp f) qs)).
Proof.
  induction 1 as [|q qs Hq Hqs IH]; cbn; auto.
  destruct (fts_ok q Hq) as (-> & Hq'). destruct IH as (-> & IH). auto.
Qed.

Lemma upd_Forall {A} (P : A -> Prop) i x l : P x -> Forall P l -> Forall P (upd i x l).
Proof. intros Hx Hl. apply Forall_forall. intros y Hy. apply upd_in in Hy as [->|Hy]; auto. now apply (proj1 (Forall_forall P l) Hl). Qed.

Lemma dispatch_first_ok s : al_inv s ->
  match dispatch_first f timeout s with
  | Ok (s', o, b) => dispatch_first_x stamp timeout s = Ok (s', o, b, false) /\ al_inv s'
  | Err e => dispatch_first_x stamp timeout s = Err e
  end.
Proof.
  intros HI. unfold dispatch_first, dispatch_first_x. destruct (ftss_ok (queues s) HI) as (-> & HQ).
  set (qs := map fst (map (first_time_stamp f) (queues s))) in *.
  destruct (nth_error qs _) as [q|] eqn:Eq; auto.
  assert (q_valid q) as Hq by (eapply (proj1 (Forall_forall _ _) HQ), nth_error_In; eauto).
  destruct (evs q) as [|e l] eqn:El.
  - destruct (fts_ok q Hq) as (-> & _). destruct (timeout <=? _); split; auto.
    unfold al_inv. cbn. apply upd_Forall; auto.
  - unfold q_valid in Hq. rewrite El in Hq. inversion Hq; subst. rewrite valid_some by auto. split; auto.
    unfold al_inv. cbn. apply upd_Forall; auto. unfold q_valid, pop_first. cbn. rewrite El. auto.
Qed.

Lemma al_loop_ok fuel : forall s, al_inv s ->
  match dispatch_loop f timeout fuel s with
  | Ok (s', o) => aligner_loop_x stamp timeout fuel s = Ok (s', o, false) /\ al_inv s'
  | Err e => aligner_loop_x stamp timeout fuel s = Err e
  end.
Proof.
  induction fuel as [|fuel IH]; intros s HI; cbn [dispatch_loop aligner_loop_x]; auto.
  pose proof (dispatch_first_ok s HI) as HD. destruct (dispatch_first f timeout s) as [[[s1 o1] again]|]; [|now rewrite HD].
  destruct HD as (-> & HI1). cbn [bind]. destruct again; auto.
  specialize (IH s1 HI1). destruct (dispatch_loop f timeout fuel s1) as [[s2 o2]|]; cbn [bind]; [|now rewrite IH].
  destruct IH as (-> & HI2). auto.
Qed.

Lemma al_step_ok s o : al_inv s -> adds_invalid stamp al_message o = false ->
  match step f timeout s o with
  | Ok (s', outs) => aligner_step_x stamp timeout s o = Ok (s', outs, false) /\ al_inv s'
  | Err e => aligner_step_x stamp timeout s o = Err e
  end.
Proof.
  intros HI Ha. destruct o as [i e|i p|]; cbn [step aligner_step_x].
  - unfold adds_invalid in Ha. cbn in Ha. assert (valid stamp e) as He by (unfold valid; destruct (stamp e); congruence).
    unfold add, aligner_add_x. destruct (nth_error (queues s) i) as [q|] eqn:Eq; [|reflexivity].
    assert (q_valid q) as Hq by (eapply (proj1 (Forall_forall _ _) HI), nth_error_In; eauto).
    rewrite (valid_some e He). destruct (f e <? last_out s); cbn [bind].
    + split; auto. unfold al_inv. cbn. apply upd_Forall; [exact Hq|auto].
    + destruct (al_ins_ok e (evs q) He Hq) as (-> & Hl). cbn [bind]. split; auto.
      unfold al_inv. cbn. apply upd_Forall; [exact Hl|auto].
  - unfold set_period. destruct (nth_error (queues s) i) as [q|] eqn:Eq; cbn [bind]; auto. split; auto.
    assert (q_valid q) as Hq by (eapply (proj1 (Forall_forall _ _) HI), nth_error_In; eauto).
    unfold al_inv. cbn. apply upd_Forall; [exact Hq|auto].
  - unfold dispatch. destruct (inputs_available s); auto. now apply al_loop_ok.
Qed.

Lemma al_length_fts s : length (map fst (map (first_time_stamp f) (queues s))) = length (queues s).
Proof. now rewrite !map_length. Qed.

Lemma al_dispatch_len s s' o b : dispatch_first f timeout s = Ok (s', o, b) -> length (queues s') = length (queues s).
Proof.
  unfold dispatch_first. destruct (nth_error _ _) as [q|]; [|discriminate]. destruct (evs q).
  - destruct (timeout <=? _); intros [= <- <- <-]; cbn; rewrite ?upd_length; apply al_length_fts.
  - intros [= <- <- <-]; cbn; rewrite ?upd_length; apply al_length_fts.
Qed.

Lemma al_loop_len fuel : forall s s' o, dispatch_loop f timeout fuel s = Ok (s', o) -> length (queues s') = length (queues s).
Proof.
  induction fuel as [|fuel IH]; intros s s' o; cbn [dispatch_loop]; [discriminate|].
  destruct (dispatch_first f timeout s) as [[[s1 o1] again]|] eqn:Ed; [|discriminate]. cbn [bind].
  apply al_dispatch_len in Ed. destruct again.
  - destruct (dispatch_loop f timeout fuel s1) as [[s2 o2]|] eqn:El; [|discriminate]. cbn [bind]. intros [= <- <-].
    apply IH in El. congruence.
  - intros [= <- <-]. auto.
Qed.

Lemma al_step_len s o s' outs : step f timeout s o = Ok (s', outs) -> length (queues s') = length (queues s).
Proof.
  destruct o as [i e|i p|]; cbn [step].
  - unfold add. destruct (nth_error _ _); [|discriminate]. destruct (_ <? _); cbn [bind]; intros [= <- <-]; cbn; apply upd_length.
  - unfold set_period. destruct (nth_error _ _); [|discriminate]. cbn [bind]; intros [= <- <-]; cbn; apply upd_length.
  - unfold dispatch. destruct (inputs_available s); [|intros [= <- <-]; auto]. apply al_loop_len.
Qed.

Lemma aligner_transparent n h :
  (forall i e, In (Add i e) h -> (i < n)%nat) ->
  match run f timeout (init n) (without_invalid stamp al_message h) with
  | Ok (s', outs) => al_inv s' /\ exists tr, run_x (aligner_step_x stamp timeout) (init n) h = Ok (s', tr) /\ emitted tr = outs /\
      only_invalid_throw stamp al_message h tr
  | Err e => run_x (aligner_step_x stamp timeout) (init n) h = Err e
  end.
Proof.
  intros HW.
  pose proof (transparent_run stamp al_message (aligner_step_x stamp timeout) (step f timeout) (run f timeout)
    ltac:(reflexivity) ltac:(reflexivity) (fun s => al_inv s /\ length (queues s) = n)
    (fun o => forall i e, o = Add i e -> (i < n)%nat)) as H.
  assert (forall s x, al_inv s /\ length (queues s) = n -> (forall i e, x = Add i e -> (i < n)%nat) ->
     adds_invalid stamp al_message x = true -> aligner_step_x stamp timeout s x = Ok (s, [], true)) as R.
  { intros s [i e|i p|] (HI & HL) HP Ha; unfold adds_invalid in Ha; cbn in Ha; try discriminate.
    cbn [aligner_step_x]. unfold aligner_add_x. specialize (HP i e eq_refl).
    destruct (nth_error (queues s) i) eqn:Eq; [|apply nth_error_None in Eq; lia].
    destruct (stamp e); [discriminate|]. reflexivity. }
  specialize (H R).
  assert (forall s x, al_inv s /\ length (queues s) = n -> (forall i e, x = Add i e -> (i < n)%nat) ->
     adds_invalid stamp al_message x = false ->
     match step f timeout s x with
     | Ok (s', o) => aligner_step_x stamp timeout s x = Ok (s', o, false) /\ al_inv s' /\ length (queues s') = n
     | Err e => aligner_step_x stamp timeout s x = Err e end) as A.
  { intros s x (HI & HL) _ Ha. pose proof (al_step_ok s x HI Ha) as HS.
    destruct (step f timeout s x) as [[s' o]|] eqn:Es; auto. destruct HS. apply al_step_len in Es. repeat split; auto. congruence. }
  specialize (H A (init n) h).
  assert (al_inv (init n) /\ length (queues (init (E := E) n)) = n) as H0.
  { unfold init, al_inv. cbn. rewrite repeat_length. split; auto. apply Forall_forall. intros q Hq.
    apply repeat_spec in Hq. subst. unfold q_valid. cbn. constructor. }
  specialize (H H0 ltac:(intros x Hx i e ->; eapply HW; eauto)).
  destruct (run f timeout (init n) (without_invalid stamp al_message h)) as [[s' outs]|]; auto.
  destruct H as ((HI & _) & H). auto.
Qed.
End Aligner.

(** ** TimeSequencer *)
Section Seq.
Import Seq_Model.
Context {E : Type} (stamp : E -> option time) (queue_size : nat) (delay : Z) (f : E -> time).
Hypothesis Hf : agrees stamp f.

Definition seq_inv (s : state E) : Prop := Forall (valid stamp) (messages s).

Lemma valid_some' e : valid stamp e -> stamp e = Some (f e).
Proof. unfold valid. intros H. destruct (stamp e) eqn:Ee; [|congruence]. now rewrite (Hf _ _ Ee). Qed.

Lemma sort_ok a b : valid stamp a -> valid stamp b -> sort_lt_x stamp a b = sort_lt f a b.
Proof. intros Ha Hb. unfold sort_lt_x, sort_lt. now rewrite !valid_some'. Qed.

Lemma seq_ins_ok e l : valid stamp e -> Forall (valid stamp) l -> seq_ins_x stamp e l = ins f e l.
Proof.
  intros He. induction 1 as [|x l Hx Hl IH]; cbn; auto. rewrite sort_ok by auto. destruct (sort_lt f e x) as [[]|]; cbn; auto.
  now rewrite IH.
Qed.

Lemma ins_valid e l l' : valid stamp e -> Forall (valid stamp) l -> seq_ins_x stamp e l = Ok l' -> Forall (valid stamp) l'.
Proof.
  intros He Hl. revert l'; induction Hl as [|x l Hx Hl IH]; cbn; intros l'.
  - intros [= <-]. auto.
  - destruct (sort_lt_x stamp e x) as [[]|]; cbn; [intros [= <-]; auto| |discriminate].
    destruct (seq_ins_x stamp e l) as [l1|]; cbn; [|discriminate]. intros [= <-]. auto.
Qed.

Lemma erase_ok k l : valid stamp k -> Forall (valid stamp) l -> erase_key_x stamp k l = erase_key f k l.
Proof.
  intros Hk. induction 1 as [|x l Hx Hl IH]; cbn; auto. rewrite !sort_ok by auto.
  destruct (sort_lt f x k); cbn; auto. destruct (sort_lt f k x); cbn; auto. now rewrite IH.
Qed.

Lemma erase_valid k l l' : Forall (valid stamp) l -> erase_key_x stamp k l = Ok l' -> Forall (valid stamp) l'.
Proof.
  intros Hl. revert l'; induction Hl as [|x l Hx Hl IH]; cbn; intros l'.
  - intros [= <-]. auto.
  - destruct (sort_lt_x stamp x k); cbn; [|discriminate]. destruct (sort_lt_x stamp k x); cbn; [|discriminate].
    destruct (erase_key_x stamp k l) as [l1|]; cbn; [|discriminate]. intros [= <-]. destruct (_ && _); auto.
Qed.

Lemma dispatch_ok ms : Forall (valid stamp) ms -> forall nows last,
  match dispatch f delay nows ms last with
  | Ok (s', o) => dispatch_x stamp delay nows ms last = (s', o, false)
  | Err _ => True
  end.
Proof.
  induction 1 as [|x l Hx Hl IH]; intros nows last; cbn; auto. rewrite valid_some' by auto.
  destruct (time_le _ _) as [[]|]; cbn; auto.
  specialize (IH (fun k => nows (S k)) (f x)). destruct (dispatch f delay (fun k => nows (S k)) l (f x)) as [[s' o]|]; cbn; auto.
  now rewrite IH.
Qed.

Lemma dispatch_inv ms : Forall (valid stamp) ms -> forall nows last s' o b,
  dispatch_x stamp delay nows ms last = (s', o, b) -> seq_inv s' /\ Forall (valid stamp) o.
Proof.
  induction 1 as [|x l Hx Hl IH]; intros nows last s' o b; cbn.
  - intros [= <- <- <-]. split; constructor.
  - destruct (stamp x) as [t|]. 2:{ intros [= <- <- <-]. split; constructor; auto. }
    destruct (time_le _ _) as [[]|].
    + destruct (dispatch_x stamp delay (fun k => nows (S k)) l t) as [[s1 o1] b1] eqn:Ed. intros [= <- <- <-].
      destruct (IH _ _ _ _ _ Ed) as (H1 & H2). split; auto. destruct b1; auto.
    + intros [= <- <- <-]. split; constructor; auto.
    + intros [= <- <- <-]. split; constructor; auto.
Qed.

Lemma seq_step_inv s o s' outs b : seq_inv s -> seq_step_x stamp queue_size delay s o = Ok (s', outs, b) ->
  seq_inv s' /\ Forall (valid stamp) outs.
Proof.
  intros HI. destruct o as [e|nows]; cbn [seq_step_x].
  - unfold seq_add_x. destruct (stamp e) as [t|] eqn:Ee. 2:{ intros [= <- <- <-]; auto. }
    assert (valid stamp e) as He by (unfold valid; congruence).
    destruct (time_lt t (last_time s)) as [[]|]; try (intros [= <- <- <-]; auto; fail).
    destruct (seq_ins_x stamp e (messages s)) as [ms|] eqn:Ei. 2:{ intros [= <- <- <-]; auto. }
    apply ins_valid in Ei; auto.
    destruct (_ && _). 2:{ intros [= <- <- <-]; auto. }
    destruct ms as [|k ms]. { intros [= <- <- <-]; auto. }
    destruct (erase_key_x stamp k (k :: ms)) as [ms'|] eqn:Ek; intros [= <- <- <-]; auto. split; auto.
    eapply erase_valid; eauto.
  - intros [= Hd]. eapply dispatch_inv; [exact HI|exact Hd].
Qed.

Lemma seq_step_ok s o : seq_inv s -> adds_invalid stamp seq_message o = false ->
  match step f queue_size delay s o with
  | Ok (s', outs) => seq_step_x stamp queue_size delay s o = Ok (s', outs, false)
  | Err _ => True
  end.
Proof.
  intros HI Ha. destruct o as [e|nows]; cbn [step seq_step_x].
  - unfold adds_invalid in Ha. cbn in Ha. assert (valid stamp e) as He by (unfold valid; destruct (stamp e); congruence).
    unfold add, seq_add_x. rewrite (valid_some' e He).
    destruct (time_lt (f e) (last_time s)) as [[]|]; cbn [bind]; auto.
    rewrite seq_ins_ok by auto. pose proof (ins_valid e (messages s)) as Hv. rewrite seq_ins_ok in Hv by auto.
    destruct (ins f e (messages s)) as [ms|]; cbn [bind]; auto. specialize (Hv ms He HI eq_refl).
    destruct (_ && _); cbn [bind]; auto. destruct ms as [|k ms]; cbn [bind]; auto.
    rewrite erase_ok by (auto; now inversion Hv). destruct (erase_key f k (k :: ms)); cbn [bind]; auto.
  - pose proof (dispatch_ok (messages s) HI nows (last_time s)) as HD. destruct (dispatch f delay nows (messages s) (last_time s)) as [[s' outs]|]; auto.
    now rewrite HD.
Qed.

Lemma seq_transparent s h s' outs : seq_inv s ->
  run f queue_size delay s (without_invalid stamp seq_message h) = Ok (s', outs) ->
  exists tr, run_x (seq_step_x stamp queue_size delay) s h = Ok (s', tr) /\ emitted tr = outs /\
      only_invalid_throw stamp seq_message h tr.
Proof.
  revert s s' outs; induction h as [|x h IH]; intros s s' outs HI; cbn [without_invalid filter run_x].
  - cbn. intros [= <- <-]. exists []. repeat split; auto. constructor.
  - fold (without_invalid stamp seq_message h). destruct (adds_invalid stamp seq_message x) eqn:Ex; cbn [negb].
    + intros Hr. destruct (IH _ _ _ HI Hr) as (tr & E1 & E2 & E3).
      assert (seq_step_x stamp queue_size delay s x = Ok (s, [], true)) as ->.
      { destruct x as [e|]; unfold adds_invalid in Ex; cbn in Ex; [|discriminate]. cbn. unfold seq_add_x.
        destruct (stamp e); [discriminate|]. reflexivity. }
      cbn [bind]. rewrite E1. cbn [bind]. eexists. split; [reflexivity|]. split; auto. constructor; auto. now rewrite Ex.
    + cbn [run]. pose proof (seq_step_ok s x HI Ex) as HS.
      destruct (step f queue_size delay s x) as [[s1 o1]|]; [|discriminate]. cbn [bind].
      destruct (seq_step_inv _ _ _ _ _ HI HS) as (HI1 & _).
      destruct (run f queue_size delay s1 (without_invalid stamp seq_message h)) as [[s2 o2]|] eqn:Er; [|discriminate].
      cbn [bind]. intros [= <- <-]. destruct (IH _ _ _ HI1 Er) as (tr & E1 & E2 & E3). rewrite HS. cbn [bind]. rewrite E1. cbn [bind].
      eexists. split; [reflexivity|]. rewrite emitted_cons, E2. split; auto. constructor; auto. now rewrite Ex.
Qed.

(** whatever else throws, an invalid message changes nothing *)
Lemma seq_same_state s h s' tr :
  run_x (seq_step_x stamp queue_size delay) s h = Ok (s', tr) ->
  exists tr', run_x (seq_step_x stamp queue_size delay) s (without_invalid stamp seq_message h) = Ok (s', tr') /\
    emitted tr' = emitted tr /\
    Forall2 (fun x c => adds_invalid stamp seq_message x = true -> c = ([], true)) h tr.
Proof.
  revert s s' tr; induction h as [|x h IH]; intros s s' tr; cbn [without_invalid filter run_x].
  - intros [= <- <-]. exists []. repeat split; auto.
  - fold (without_invalid stamp seq_message h). destruct (adds_invalid stamp seq_message x) eqn:Ex; cbn [negb].
    + assert (seq_step_x stamp queue_size delay s x = Ok (s, [], true)) as ->.
      { destruct x as [e|]; unfold adds_invalid in Ex; cbn in Ex; [|discriminate]. cbn. unfold seq_add_x.
        destruct (stamp e); [discriminate|]. reflexivity. }
      cbn [bind]. destruct (run_x _ s h) as [[s2 tr2]|] eqn:Er; [|discriminate]. cbn [bind]. intros [= <- <-].
      destruct (IH _ _ _ Er) as (tr' & E1 & E2 & E3). exists tr'. repeat split; auto.
    + cbn [run_x]. destruct (seq_step_x stamp queue_size delay s x) as [[[s1 o1] b1]|]; [|discriminate]. cbn [bind].
      destruct (run_x _ s1 h) as [[s2 tr2]|] eqn:Er; [|discriminate]. cbn [bind]. intros [= <- <-].
      destruct (IH _ _ _ Er) as (tr' & E1 & E2 & E3). rewrite E1. cbn [bind]. eexists. split; [reflexivity|].
      rewrite !emitted_cons, E2. split; auto. constructor; auto. congruence.
Qed.

Lemma seq_run_total s h : exists s' tr, run_x (seq_step_x stamp queue_size delay) s h = Ok (s', tr).
Proof.
  revert s; induction h as [|x h IH]; intros s; cbn [run_x]; eauto.
  assert (exists s1 o1 b1, seq_step_x stamp queue_size delay s x = Ok (s1, o1, b1)) as (s1 & o1 & b1 & ->).
  { destruct x; cbn. - destruct (seq_add_x _ _ _ _); eauto. - destruct (dispatch_x _ _ _ _ _) as [[? ?] ?]; eauto. }
  cbn [bind]. destruct (IH s1) as (s' & tr & ->). cbn [bind]. eauto.
Qed.

Lemma seq_valid s h s' tr : seq_inv s -> run_x (seq_step_x stamp queue_size delay) s h = Ok (s', tr) ->
  Forall (valid stamp) (emitted tr) /\ seq_inv s'.
Proof.
  revert s s' tr; induction h as [|x h IH]; intros s s' tr HI; cbn [run_x].
  - intros [= <- <-]. cbn. auto.
  - destruct (seq_step_x stamp queue_size delay s x) as [[[s1 o1] b1]|] eqn:Es; [|discriminate]. cbn [bind].
    destruct (run_x _ s1 h) as [[s2 tr2]|] eqn:Er; [|discriminate]. cbn [bind]. intros [= <- <-].
    destruct (seq_step_inv _ _ _ _ _ HI Es) as (HI1 & Ho). destruct (IH _ _ _ HI1 Er) as (A & B).
    split; auto. rewrite emitted_cons. apply Forall_app. auto.
Qed.
End Seq.

(** ** Cache *)
Section Cache.
Import Cache_Model.
Context {E : Type} (stamp : E -> option time) (f : E -> time).
Hypothesis Hf : agrees stamp f.

Definition cache_inv (c : nat) (s : state E) : Prop :=
  cap s = Some c /\ (length (contents s) <= c)%nat /\ Forall (valid stamp) (contents s).

Lemma pop_while_ok c (l : list E) : (0 < c)%nat -> pop_while c l = Ok (skipn (S (length l) - c) l).
Proof.
  intros Hc. induction l as [|x l IH]; cbn [pop_while].
  - destruct (Nat.leb_spec c (length (@nil E))); cbn in *; [lia|]. destruct c; [lia|]. reflexivity.
  - destruct (Nat.leb_spec c (length (x :: l))) as [Hle|Hlt].
    + rewrite IH. f_equal. cbn [length] in *. replace (S (S (length l)) - c)%nat with (S (S (length l) - c)) by lia. reflexivity.
    + cbn [length] in *. replace (S (S (length l)) - c)%nat with 0%nat by lia. reflexivity.
Qed.

Lemma popped_valid c l : Forall (valid stamp) l -> Forall (valid stamp) (skipn (S (length l) - c) l).
Proof. intros H. rewrite <- (firstn_skipn (S (length l) - c) l) in H at 1. now apply Forall_app in H. Qed.

Lemma popped_length c (l : list E) : (0 < c)%nat -> (length (skipn (S (length l) - c) l) < c)%nat.
Proof. intros. rewrite skipn_length. lia. Qed.

Lemma popped_one c (l : list E) : (0 < c)%nat -> (length l <= c)%nat ->
  skipn (S (length l) - c) l = if (length l <? c)%nat then l else tl l.
Proof.
  intros Hc Hl. destruct (Nat.ltb_spec (length l) c).
  - replace (S (length l) - c)%nat with 0%nat by lia. reflexivity.
  - replace (S (length l) - c)%nat with 1%nat by lia. reflexivity.
Qed.

Lemma valid_some'' e : valid stamp e -> stamp e = Some (f e).
Proof. unfold valid. intros H. destruct (stamp e) eqn:Ee; [|congruence]. now rewrite (Hf _ _ Ee). Qed.

Lemma insert_back_ok e rl : Forall (valid stamp) rl -> insert_back_x stamp (f e) e rl = insert_back f e rl.
Proof.
  induction 1 as [|x l Hx Hl IH]; cbn; auto. rewrite valid_some'' by auto. destruct (time_gt _ _) as [[]|]; cbn; auto. now rewrite IH.
Qed.

Lemma insert_back_err e rl x : insert_back f e rl = Err x -> x = Thrown.
Proof.
  induction rl as [|y rl IH]; cbn; [discriminate|]. unfold time_gt, time_lt. destruct (clock_eqb _ _); cbn; [|congruence].
  destruct (_ <? _); [|discriminate]. destruct (insert_back f e rl); cbn; [discriminate|]. intros [= <-]. auto.
Qed.

Lemma insert_back_props t e rl rl' : valid stamp e -> Forall (valid stamp) rl -> insert_back_x stamp t e rl = Ok rl' ->
  Forall (valid stamp) rl' /\ length rl' = S (length rl).
Proof.
  intros He Hl. revert rl'; induction Hl as [|x l Hx Hl IH]; cbn; intros rl'.
  - intros [= <-]. auto.
  - destruct (stamp x) as [tx|]; [|discriminate]. destruct (time_gt tx t) as [[]|]; cbn; [| |discriminate].
    + destruct (insert_back_x stamp t e l) as [r'|] eqn:Er; cbn; [|discriminate]. intros [= <-].
      destruct (IH r' eq_refl). split; auto. cbn. lia.
    + intros [= <-]. split; auto.
Qed.

(** what add does, for any message *)
Lemma cache_add_ok c s e : (0 < c)%nat -> cache_inv c s ->
  exists s' o b, cache_add_x stamp s e = Ok (s', o, b) /\ cache_inv c s' /\ Forall (valid stamp) o /\
    (stamp e = None -> o = [] /\ b = true /\
       contents s' = if (length (contents s) <? c)%nat then contents s else tl (contents s)) /\
    (stamp e <> None -> Cache_Model.add f e s = (s', if b then Failed Thrown else Forwarded e) /\ o = if b then [] else [e]).
Proof.
  intros Hc (H1 & H2 & H3). unfold cache_add_x, Cache_Model.add. rewrite H1, pop_while_ok by auto. cbn [bind].
  pose proof (popped_valid c _ H3) as HV. pose proof (popped_length c (contents s) Hc) as HL.
  pose proof (popped_one c (contents s) Hc H2) as HO. set (l := skipn (S (length (contents s)) - c) (contents s)) in *.
  destruct (stamp e) as [t|] eqn:Ee.
  - assert (valid stamp e) as He by (unfold valid; congruence). rewrite <- (Hf _ _ Ee).
    rewrite insert_back_ok by (now apply Forall_rev).
    pose proof (insert_back_props (f e) e (rev l)) as HP. rewrite insert_back_ok in HP by (now apply Forall_rev).
    destruct (insert_back f e (rev l)) as [rl|x] eqn:Ei.
    + destruct (HP rl He (Forall_rev HV) eq_refl) as (P1 & P2). rewrite rev_length in P2.
      eexists _, _, _. split; [reflexivity|]. split; [|split; [auto|split; [congruence|auto]]].
      split; auto. cbn [contents]. rewrite rev_length. split; [lia|]. now apply Forall_rev.
    + apply insert_back_err in Ei. subst x. eexists _, _, _. split; [reflexivity|].
      split; [|split; [auto|split; [congruence|auto]]]. split; auto. cbn [contents]. split; auto. lia.
  - eexists _, _, _. split; [reflexivity|]. split; [|split; [auto|split; [|congruence]]].
    + split; auto. cbn [contents]. split; auto. lia.
    + intros _. cbn [contents]. rewrite HO. auto.
Qed.

Lemma cache_run_ok c h : (0 < c)%nat -> forall s, cache_inv c s ->
  exists s' tr, run_x (cache_add_x stamp) s h = Ok (s', tr) /\ cache_inv c s' /\ Forall (valid stamp) (emitted tr).
Proof.
  intros Hc. induction h as [|e h IH]; intros s HI; cbn [run_x].
  - exists s, []. cbn. auto.
  - destruct (cache_add_ok c s e Hc HI) as (s1 & o & b & -> & HI1 & Ho & _). cbn [bind].
    destruct (IH s1 HI1) as (s' & tr & -> & HI' & Htr). cbn [bind]. eexists _, _. split; [reflexivity|]. split; auto.
    rewrite emitted_cons. apply Forall_app. auto.
Qed.

Lemma cache_init_inv c : (0 < c)%nat -> cache_inv c (ctor c).
Proof. intros Hc. unfold ctor, setCacheSize. destruct c; [lia|]. split; auto. cbn. split; [lia|constructor]. Qed.
End Cache.
