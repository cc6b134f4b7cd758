(** The sequential orders behind concurrent executions of the two kinds of methods. *)
From Coq Require Import List Arith Bool Lia Permutation.
From Verif Require Import Base Sched_Model Sched_Spec Sched_Proofs.
Import ListNotations.

Lemma map_upd {A B} (f : A -> B) i x l : map f (upd i x l) = upd i (f x) (map f l).
Proof. revert i. induction l as [|a l IH]; intros [|i]; cbn; auto. now rewrite IH. Qed.
Lemma calls_of_app {A} tid (x y : list (nat * A)) : calls_of tid (x ++ y) = calls_of tid x ++ calls_of tid y.
Proof. unfold calls_of. now rewrite filter_app, map_app. Qed.
Lemma calls_of_one {A} tid t (o : A) : calls_of tid [(t, o)] = if Nat.eqb t tid then [o] else [].
Proof. unfold calls_of. cbn. now destruct (Nat.eqb t tid). Qed.
Lemma calls_of_none {A} n (l : list (nat * A)) : (forall x, In x l -> fst x < n) -> forall tid, n <= tid -> calls_of tid l = [].
Proof.
  intros H tid Ht. unfold calls_of. induction l as [|[t o] l IH]; auto. cbn. destruct (Nat.eqb_spec t tid) as [->|N].
  - specialize (H (tid, o) (or_introl eq_refl)). cbn in H. lia.
  - apply IH. intros x Hx. apply H. now right.
Qed.
Lemma calls_of_tag {A} tid t (es : list A) : calls_of tid (map (pair t) es) = if Nat.eqb t tid then es else [].
Proof. unfold calls_of. induction es as [|e es IH]; cbn; [now destruct (Nat.eqb t tid)|]. destruct (Nat.eqb t tid); cbn; auto. now rewrite IH. Qed.

(** an interleaving contains every call exactly once *)
Lemma split_thread {A} tid (l : list (nat * A)) : Permutation (map snd l) (calls_of tid l ++ map snd (filter (fun x => negb (Nat.eqb (fst x) tid)) l)).
Proof.
  unfold calls_of. induction l as [|[t o] l IH]; cbn; auto. destruct (Nat.eqb t tid); cbn; [now constructor|]. rewrite IH. apply Permutation_middle.
Qed.
Lemma split_all {A} n : forall (l : list (nat * A)), (forall x, In x l -> fst x < n) -> Permutation (map snd l) (concat (map (fun tid => calls_of tid l) (seq 0 n))).
Proof.
  induction n as [|n IH]; intros l H.
  - destruct l as [|x l]; auto. specialize (H x (or_introl eq_refl)). lia.
  - rewrite seq_S, map_app, concat_app. cbn. rewrite app_nil_r, (split_thread n l).
    set (l' := filter _ l). assert (Hl' : forall x, In x l' -> fst x < n).
    { intros x Hx. apply filter_In in Hx. destruct Hx as (Hx & Hn). apply H in Hx. destruct (Nat.eqb_spec (fst x) n); [discriminate|lia]. }
    rewrite (IH l' Hl'). rewrite Permutation_app_comm. apply Permutation_app_tail.
    assert (E : map (fun tid => calls_of tid l') (seq 0 n) = map (fun tid => calls_of tid l) (seq 0 n)); [|now rewrite E].
    apply map_ext_in. intros tid Hin. apply in_seq in Hin. unfold l', calls_of. clear -Hin. f_equal. induction l as [|x l IH]; auto. cbn.
    destruct (Nat.eqb_spec (fst x) n) as [En|N]; cbn; rewrite IH; destruct (Nat.eqb_spec (fst x) tid); auto. lia.
Qed.
Lemma interleaving_perm {A} (calls : list (list A)) order : interleaving calls order -> Permutation (map snd order) (concat calls).
Proof.
  intros (H & C). rewrite (split_all (length calls) order H). assert (E : map (fun tid => calls_of tid order) (seq 0 (length calls)) = calls); [|now rewrite E].
  clear H. revert C. assert (G : forall n, (forall tid ops, nth_error calls tid = Some ops -> calls_of (n + tid) order = ops) -> map (fun tid => calls_of tid order) (seq n (length calls)) = calls).
  { induction calls as [|x calls IH]; intros n C; auto. cbn. f_equal.
    - specialize (C 0 x eq_refl). now rewrite Nat.add_0_r in C.
    - apply IH. intros tid ops Ht. replace (S n + tid) with (n + S tid) by lia. apply C. exact Ht. }
  intros C. apply (G 0). exact C.
Qed.

Section Locked.
Context {P R Op : Type} (body : Op -> sect P R) (apply : P -> Op -> P).
Hypothesis Hbody : forall o p, fst (sect_run (body o) p) = apply p o.
Variable p0 : nat -> P.
Variable calls : list (list Op).
Notation a0 := (mkA p0 (map (locked_calls body) calls)).

Lemma locked_inv acq : valid acq a0 -> exists order rest,
  map fst order = map fst acq /\ takers 0 acq = map fst acq /\ apart (arun (map fst acq) a0) 0 = fold_left apply (map snd order) (p0 0) /\
  progs (arun (map fst acq) a0) = map (locked_calls body) rest /\ length rest = length calls /\
  (forall x, In x order -> fst x < length calls) /\
  forall tid ops, nth_error calls tid = Some ops -> exists r, nth_error rest tid = Some r /\ ops = calls_of tid order ++ r.
Proof.
  induction acq as [|[t l] acq IH] using rev_ind; intros V.
  - exists [], calls. cbn. repeat (split; [auto; try contradiction|]). intros tid ops E. now exists ops.
  - apply valid_app in V. destruct V as (V & ((b & k & E) & _)). destruct (IH V) as (order & rest & Ho & Ht & Ha & Hp & Hlen & Hin & Hc).
    rewrite Hp, nth_error_map in E. destruct (nth_error rest t) as [[|o r']|] eqn:Er; try discriminate. cbn in E. injection E as <- <- <-.
    exists (order ++ [(t, o)]), (upd t r' rest). assert (Hlt : t < length calls) by (rewrite <- Hlen; apply nth_error_Some; congruence).
    split; [now rewrite !map_app, Ho|]. split; [unfold takers in *; rewrite filter_app, !map_app, Ht; reflexivity|].
    rewrite map_app. cbn [map fst]. rewrite arun_app. cbn [arun fold_left]. unfold astep. rewrite Hp, nth_error_map, Er. cbn [option_map locked_calls fold_right]. unfold locked_method.
    rewrite Ha. destruct (sect_run (body o) (fold_left apply (map snd order) (p0 0))) as [p r] eqn:Es. cbn [apart progs].
    split; [rewrite set_eq, map_app, fold_left_app; cbn; rewrite <- Hbody, Es; reflexivity|]. split; [now rewrite map_upd|]. split; [now rewrite upd_length|]. split.
    + intros x Hx. apply in_app_iff in Hx. destruct Hx as [Hx|[<-|[]]]; auto.
    + intros tid ops Eo. destruct (Hc _ _ Eo) as (r1 & E1 & ->). rewrite nth_error_upd, calls_of_app, calls_of_one. destruct (Nat.eqb_spec t tid) as [<-|N].
      * rewrite Er in *. injection E1 as <-. exists r'. rewrite <- app_assoc. auto.
      * exists r1. now rewrite app_nil_r.
Qed.

Lemma locked_exec sched c acq : exec sched (start p0 (map (locked_calls body) calls)) = (c, acq) -> idle c -> exists order,
  map fst order = map fst acq /\ takers 0 acq = map fst acq /\ part c 0 = fold_left apply (map snd order) (p0 0) /\ begun calls order /\
  forall tid ops, nth_error calls tid = Some ops -> exists r, ops = calls_of tid order ++ r /\ nth_error (threads c) tid = Some (Out (locked_calls body r)).
Proof.
  intros E I. pose proof (sim_exec _ _ _ _ _ (sim_start p0 (map (locked_calls body) calls)) E) as S. pose proof (sim_exec_valid _ _ _ _ _ (sim_start p0 (map (locked_calls body) calls)) E) as V.
  destruct (locked_inv acq V) as (order & rest & Ho & Ht & Ha & Hp & Hlen & Hin & Hc). exists order. split; auto. split; auto. split; [now rewrite <- (idle_free _ _ S I)|].
  split; [split; auto; intros tid ops Eo; destruct (Hc _ _ Eo) as (r & _ & Er); eauto|]. intros tid ops Eo. destruct (Hc _ _ Eo) as (r & Er & Ec). exists r. split; auto.
  rewrite (idle_threads _ _ S I), Hp, map_map, nth_error_map, Er. reflexivity.
Qed.
Lemma locked_done r : locked_calls body r = Done -> r = [].
Proof. destruct r; auto. discriminate. Qed.
Lemma finished_idle (c : config P R) : finished c -> idle c.
Proof. intros F tid l b k E. apply nth_error_In in E. apply F in E. discriminate. Qed.
Lemma locked_finished sched c acq : exec sched (start p0 (map (locked_calls body) calls)) = (c, acq) -> finished c -> exists order,
  interleaving calls order /\ map fst order = takers 0 acq /\ part c 0 = fold_left apply (map snd order) (p0 0).
Proof.
  intros E F. destruct (locked_exec _ _ _ E (finished_idle _ F)) as (order & Ho & Ht & Hp & Hb & Hc). exists order. split; [|split; [congruence|exact Hp]]. split; [apply Hb|].
  intros tid ops Eo. destruct (Hc _ _ Eo) as (r & -> & Er). apply nth_error_In in Er. apply F in Er. injection Er as Er. apply locked_done in Er. subst. now rewrite app_nil_r.
Qed.
End Locked.

Section TwoPhase.
Context {S E Op : Type} (body : Op -> sect (two_part S E) (list E)) (signal : E -> sect (two_part S E) (list E)) (apply : S -> Op -> S * list E).
Hypothesis Hbody : forall o s, sect_run (body o) (inl s) = (inl (fst (apply s o)), snd (apply s o)).
Hypothesis Hsignal : forall e l, fst (sect_run (signal e) (inr l)) = inr (l ++ [e]).
Variable s0 : S.
Variable calls : list (list Op).
Notation a0 := (mkA (two_start s0) (map (two_calls body signal) calls)).

(** the sequential run: final state and outputs, each with the thread whose call output it *)
Fixpoint srun (s : S) (order : list (nat * Op)) : S * list (nat * E) :=
  match order with
  | [] => (s, [])
  | (t, o) :: r => let (s', out) := apply s o in let (s2, outs) := srun s' r in (s2, map (pair t) out ++ outs)
  end.
Lemma srun_app x : forall s y, srun s (x ++ y) = (fst (srun (fst (srun s x)) y), snd (srun s x) ++ snd (srun (fst (srun s x)) y)).
Proof.
  induction x as [|[t o] x IH]; intros s y; cbn; [now destruct (srun s y)|]. destruct (apply s o) as [s' out]. rewrite IH. destruct (srun s' x) as [s2 outs]. cbn. now rewrite app_assoc.
Qed.
Lemma srun_state order : forall s, fst (srun s order) = fold_left (fun s o => fst (apply s o)) (map snd order) s.
Proof. induction order as [|[t o] r IH]; intros s; cbn; auto. destruct (apply s o) as [s' out] eqn:Ea. rewrite <- IH. cbn. now destruct (srun s' r). Qed.

Definition code (x : list E * list Op) : prog (two_part S E) (list E) := emit_all signal (fst x) (two_calls body signal (snd x)).
Lemma code_sec x l b k : code x = Sec l b k ->
  (exists e es, fst x = e :: es /\ l = 1 /\ b = signal e /\ k = fun _ => code (es, snd x)) \/
  (exists o r, fst x = [] /\ snd x = o :: r /\ l = 0 /\ b = body o /\ k = fun out => code (out, r)).
Proof.
  destruct x as [[|e es] ops]; cbn.
  - destruct ops as [|o r]; cbn; [discriminate|]. intros H. injection H as <- <- <-. right. exists o, r. auto.
  - intros H. injection H as <- <- <-. left. exists e, es. auto.
Qed.
Lemma code_done x : code x = Done -> x = ([], []).
Proof. destruct x as [[|e es] [|o r]]; cbn; intros H; try discriminate. reflexivity. Qed.

Lemma two_inv acq : valid acq a0 -> exists order emitted rest,
  map fst order = takers 0 acq /\ map fst emitted = takers 1 acq /\
  apart (arun (map fst acq) a0) 0 = inl (fst (srun s0 order)) /\ apart (arun (map fst acq) a0) 1 = inr (map snd emitted) /\
  progs (arun (map fst acq) a0) = map code rest /\ length rest = length calls /\
  (forall x, In x order -> fst x < length calls) /\ (forall x, In x emitted -> fst x < length calls) /\
  forall tid ops, nth_error calls tid = Some ops -> exists pending r, nth_error rest tid = Some (pending, r) /\ ops = calls_of tid order ++ r /\
    calls_of tid (snd (srun s0 order)) = calls_of tid emitted ++ pending.
Proof.
  induction acq as [|[t l] acq IH] using rev_ind; intros V.
  - exists [], [], (map (pair []) calls). cbn. do 4 (split; [reflexivity|]). split; [now rewrite map_map|]. split; [apply map_length|]. split; [contradiction|]. split; [contradiction|].
    intros tid ops Eo. exists [], ops. rewrite nth_error_map, Eo. auto.
  - apply valid_app in V. destruct V as (V & ((b & k & Es) & _)). destruct (IH V) as (order & emitted & rest & Ho & He & Ha & Hb & Hp & Hlen & Hin & Hin2 & Hc).
    rewrite Hp, nth_error_map in Es. destruct (nth_error rest t) as [x|] eqn:Er; [|discriminate]. cbn in Es. injection Es as Es. assert (Hlt : t < length calls) by (rewrite <- Hlen; apply nth_error_Some; congruence).
    destruct x as [pend ops0]. rewrite map_app. cbn [map fst]. rewrite arun_app. cbn [arun fold_left]. unfold astep. rewrite Hp, nth_error_map, Er. cbn [option_map]. rewrite Es.
    destruct (code_sec _ _ _ _ Es) as [(e & es & Ex & -> & -> & ->)|(o & r & Ex & Ex2 & -> & -> & ->)]; cbn [fst snd] in *.
    + subst pend. rewrite Hb. specialize (Hsignal e (map snd emitted)). destruct (sect_run (signal e) (inr (map snd emitted))) as [p' r'] eqn:Esr. cbn in Hsignal. subst p'. cbn [apart progs].
      exists order, (emitted ++ [(t, e)]), (upd t (es, ops0) rest). unfold takers in *. rewrite !filter_app, !map_app, <- Ho, <- He. cbn [filter snd fst map Nat.eqb]. rewrite app_nil_r. split; auto. split; auto. rewrite set_neq by auto. split; auto. split; [apply set_eq|].
      split; [now rewrite map_upd|]. split; [now rewrite upd_length|]. split; auto. split; [intros x Hx; apply in_app_iff in Hx; destruct Hx as [Hx|[<-|[]]]; auto|].
      intros tid ops Eo. destruct (Hc _ _ Eo) as (pd & r1 & E1 & Eops & Ecs). rewrite nth_error_upd, calls_of_app, calls_of_one. destruct (Nat.eqb_spec t tid) as [<-|N].
      * rewrite Er in *. injection E1 as <- <-. exists es, ops0. rewrite Ecs, <- app_assoc. auto.
      * exists pd, r1. rewrite app_nil_r. auto.
    + subst pend ops0. rewrite Ha, Hbody. cbn [apart progs]. set (s := fst (srun s0 order)) in *.
      exists (order ++ [(t, o)]), emitted, (upd t (snd (apply s o), r) rest). unfold takers in *. rewrite !filter_app, !map_app, <- Ho, <- He. cbn [filter snd fst map Nat.eqb]. rewrite app_nil_r. split; auto. split; auto.
      assert (Esr : srun s0 (order ++ [(t, o)]) = (fst (apply s o), snd (srun s0 order) ++ map (pair t) (snd (apply s o)))).
      { rewrite srun_app. fold s. cbn. destruct (apply s o) as [s' out]. cbn. now rewrite app_nil_r. }
      rewrite Esr. cbn [fst snd]. rewrite set_eq. split; auto. rewrite set_neq by auto. split; auto. split; [now rewrite map_upd|]. split; [now rewrite upd_length|].
      split; [intros x Hx; apply in_app_iff in Hx; destruct Hx as [Hx|[<-|[]]]; auto|]. split; auto.
      intros tid ops Eo. destruct (Hc _ _ Eo) as (pd & r1 & E1 & Eops & Ecs). rewrite nth_error_upd, !calls_of_app, calls_of_one, calls_of_tag. destruct (Nat.eqb_spec t tid) as [<-|N].
      * rewrite Er in *. injection E1 as <- <-. exists (snd (apply s o)), r. rewrite Ecs, app_nil_r, <- app_assoc. auto.
      * exists pd, r1. rewrite !app_nil_r. auto.
Qed.

Lemma two_exec sched c acq : exec sched (start (two_start s0) (map (two_calls body signal) calls)) = (c, acq) -> idle c -> exists order emitted,
  map fst order = takers 0 acq /\ map fst emitted = takers 1 acq /\ begun calls order /\
  part c 0 = inl (fst (srun s0 order)) /\ part c 1 = inr (map snd emitted) /\
  (forall x, In x emitted -> fst x < length calls) /\
  forall tid ops, nth_error calls tid = Some ops -> exists pending r, nth_error (threads c) tid = Some (Out (code (pending, r))) /\ ops = calls_of tid order ++ r /\
    calls_of tid (snd (srun s0 order)) = calls_of tid emitted ++ pending.
Proof.
  intros Ex I. pose proof (sim_exec _ _ _ _ _ (sim_start (two_start s0) (map (two_calls body signal) calls)) Ex) as Sm. pose proof (sim_exec_valid _ _ _ _ _ (sim_start (two_start s0) (map (two_calls body signal) calls)) Ex) as V.
  destruct (two_inv acq V) as (order & emitted & rest & Ho & He & Ha & Hb & Hp & Hlen & Hin & Hin2 & Hc). exists order, emitted. split; auto. split; auto.
  split; [split; auto; intros tid ops Eo; destruct (Hc _ _ Eo) as (pd & r & _ & Er & _); eauto|]. split; [now rewrite <- (idle_free _ _ Sm I)|]. split; [now rewrite <- (idle_free _ _ Sm I)|]. split; auto.
  intros tid ops Eo. destruct (Hc _ _ Eo) as (pd & r & Er & Ec & Ed). exists pd, r. split; auto. rewrite (idle_threads _ _ Sm I), Hp, map_map, nth_error_map, Er. reflexivity.
Qed.

Lemma srun_tags order : (forall x, In x order -> fst x < length calls) -> forall s x, In x (snd (srun s order)) -> fst x < length calls.
Proof.
  induction order as [|[t o] r IH]; intros H s x Hx; cbn in Hx; [contradiction|]. destruct (apply s o) as [s' out]. specialize (IH (fun y Hy => H y (or_intror Hy)) s'). destruct (srun s' r) as [s2 outs]. cbn in *.
  apply in_app_iff in Hx. destruct Hx as [Hx|Hx]; [|auto]. apply in_map_iff in Hx. destruct Hx as (e & <- & _). apply (H (t, o)). auto.
Qed.
Lemma two_finished sched c acq : exec sched (start (two_start s0) (map (two_calls body signal) calls)) = (c, acq) -> finished c -> exists order emitted,
  interleaving calls order /\ map fst order = takers 0 acq /\ map fst emitted = takers 1 acq /\
  part c 0 = inl (fst (srun s0 order)) /\ part c 1 = inr (map snd emitted) /\
  (forall tid, calls_of tid emitted = calls_of tid (snd (srun s0 order))) /\ Permutation (map snd emitted) (map snd (snd (srun s0 order))).
Proof.
  intros Ex F. destruct (two_exec _ _ _ Ex (finished_idle _ F)) as (order & emitted & Ho & He & Hb & H0 & H1 & Hin & Hc). exists order, emitted.
  assert (G : forall tid ops, nth_error calls tid = Some ops -> ops = calls_of tid order /\ calls_of tid emitted = calls_of tid (snd (srun s0 order))).
  { intros tid ops Eo. destruct (Hc _ _ Eo) as (pd & r & Et & Eops & Ecs). apply nth_error_In in Et. apply F in Et. injection Et as Et. apply code_done in Et. injection Et as -> ->. rewrite app_nil_r in *. auto. }
  split; [split; [apply Hb|]; intros tid ops Eo; symmetry; now apply G|]. split; auto. split; auto. split; auto. split; auto.
  assert (Q : forall tid, calls_of tid emitted = calls_of tid (snd (srun s0 order))).
  { intros tid. destruct (nth_error calls tid) as [ops|] eqn:Eo; [eapply G; eauto|]. apply nth_error_None in Eo. rewrite (calls_of_none _ _ Hin tid Eo). symmetry. apply (calls_of_none (length calls)); auto. apply srun_tags. apply Hb. }
  split; auto. rewrite (split_all (length calls) emitted Hin). rewrite (split_all (length calls) (snd (srun s0 order)) (srun_tags order (proj1 Hb) s0)). erewrite map_ext; [reflexivity|]. exact Q.
Qed.
Lemma all_one_thread {A} d (l : list (nat * A)) : (forall x, In x l -> fst x = d) -> calls_of d l = map snd l.
Proof. intros H. unfold calls_of. f_equal. induction l as [|x l IH]; auto. cbn. rewrite (H x (or_introl eq_refl)), Nat.eqb_refl. f_equal. apply IH. intros y Hy. apply H. now right. Qed.
Lemma srun_outs order : forall s, snd (fold_left (fun so o => (fst (apply (fst so) o), snd so ++ snd (apply (fst so) o))) (map snd order) (s, [])) = map snd (snd (srun s order)).
Proof.
  assert (G : forall order s o0, fold_left (fun so o => (fst (apply (fst so) o), snd so ++ snd (apply (fst so) o))) (map snd order) (s, o0) = (fst (srun s order), o0 ++ map snd (snd (srun s order)))).
  { clear. induction order as [|[t o] r IH]; intros s o0; cbn; [now rewrite app_nil_r|]. rewrite IH. destruct (apply s o) as [s' out]. cbn. destruct (srun s' r) as [s2 outs]. cbn. rewrite map_app, map_map. cbn. now rewrite map_id, app_assoc. }
  intros s. now rewrite G.
Qed.
End TwoPhase.
Lemma repeat_finished {P R} n (c : config P R) : threads c = repeat (Out Done) n -> finished c.
Proof. intros E t Ht. rewrite E in Ht. now apply repeat_spec in Ht. Qed.
