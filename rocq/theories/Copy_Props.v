(** Property C90: synchronizers constructed from copies of one policy.  [run [] h] performs a
    program [h] creating, copying and using policy objects and synchronizers, and returns the
    calls of user callbacks. *)
From Coq Require Import List Arith Bool ZArith Lia.
From Verif Require Import Base Trace Copy_Model Copy_Spec Copy_Proofs.
From Verif Require Exact_Model Exact_Spec Eps_Model Eps_Spec Eps_Props Approx_Model Approx_Spec Approx_More Approx_Props.
Import ListNotations.

Lemma filter_all {A} (l : list A) : filter (fun _ => negb false) l = l.
Proof. induction l as [|x l IH]; [reflexivity|]. cbn [filter negb]. f_equal. exact IH. Qed.

(** * ExactTime *)
Section Exact.
Context {E : Type} (stamp : E -> Z) (n q : nat).
Notation init := (@Exact_Model.init E).
Notation run1 := (Exact_Model.run stamp n q).
Notation program := (run init (exact_step stamp n q) exact_copy (fun _ b => b) exact_is_drop []).

Lemma exact_run_policy s h : run_policy (exact_step stamp n q) s h = Ok (run1 s h).
Proof.
  revert s. induction h as [|x h IH]; intros s; [reflexivity|]. cbn. destruct (Exact_Model.add stamp n q s x) as [s1 o1]. cbn.
  rewrite IH. cbn. now destruct (run1 s1 h).
Qed.

(** C90 for ExactTime, for copies made at any time: no program fails; every synchronizer gives its
    own callbacks, and only them, exactly the sets that the policy makes of the messages added to
    it, continuing from what its ancestors had received when they were copied. *)
Theorem C90_exact_independent h :
  allowed h ->
  exists w cs, program h = Ok (w, cs) /\
    forall k f, nth_error (known h) k = Some f ->
      sets_for k cs = filter (fun o => negb (exact_is_drop o)) (snd (run1 (fst (run1 init (inherited f))) (own f))).
Proof.
  intros HA.
  assert (HC : copied_when (faithful init (exact_step stamp n q) exact_copy) h) by (intros h1 o h2 k f _ _ _ s o' _; reflexivity).
  destruct (run_ok init (exact_step stamp n q) exact_copy (fun _ b => b) exact_is_drop (fun _ => True) h) as (w & cs & Hr); auto.
  { intros l _. rewrite exact_run_policy. destruct (run1 init l). eauto. }
  { now intros. }
  exists w, cs. split; [exact Hr|]. intros k f Hf.
  destruct (run_Good _ _ _ _ _ h w cs HA HC Hr) as [GL GO _].
  destruct (nth_error w k) as [b|] eqn:Hb.
  2:{ apply nth_error_None in Hb. assert (k < length (known h)) by (apply nth_error_Some; congruence). lia. }
  destruct (GO k f b Hf Hb) as (_ & s1 & o1 & o2 & H1 & H2 & H3). rewrite exact_run_policy in H1, H2. injection H1 as H1. injection H2 as H2.
  rewrite H1. cbn [fst]. now rewrite H2.
Qed.

(** A drop callback is called for what is dropped by the very object it is registered on, from
    then on. *)
Theorem C90_exact_drops h1 k c h2 w cs f :
  allowed (h1 ++ RegisterDrop k c :: h2) -> registered_once c h1 h2 -> nth_error (known h1) k = Some f ->
  program (h1 ++ RegisterDrop k c :: h2) = Ok (w, cs) ->
  drops_for c cs = filter exact_is_drop (snd (run1 (fst (run1 init (lineage f))) (added_to k h2))).
Proof.
  intros HA HR Hf Hr. assert (HA1 : allowed h1) by (eapply allowed_prefix; eauto).
  assert (HC : copied_when (faithful init (exact_step stamp n q) exact_copy) h1) by (intros h1' o h2' k' f' _ _ _ s o' _; reflexivity).
  assert (HD := fun HN => drop_calls _ _ _ _ _ c k h1 h2 w cs HR HN Hr).
  destruct HD as (w1 & c1 & b & o & b' & E1 & Hb & _ & E2 & E3).
  { intros j j' H. assert (H' : In (Assign j j') (h1 ++ RegisterDrop k c :: h2)) by (apply in_app_or in H as [H|H]; apply in_or_app; cbn; auto).
    apply in_split in H' as (l1 & l2 & H'). exact (HA _ _ _ H'). }
  destruct (run_Good _ _ _ _ _ h1 w1 c1 HA1 HC E1) as [GL GO _].
  destruct (describes_lineage _ _ _ f b k c1 (GO k f b Hf Hb)) as (o1 & H1).
  rewrite exact_run_policy in H1, E2. injection H1 as H1. injection E2 as E2. rewrite E3, H1. cbn [fst]. now rewrite E2.
Qed.

(** So a callback registered on a policy object before a synchronizer is constructed from it is
    never called, whatever the synchronizer drops. *)
Theorem C90_exact_drop_callback_lost_refuted h2 w cs :
  (forall j, ~ In (RegisterDrop j 7) h2) -> allowed (NewPolicy :: RegisterDrop 0 7 :: Construct 0 :: h2) ->
  program (NewPolicy :: RegisterDrop 0 7 :: Construct 0 :: h2) = Ok (w, cs) -> drops_for 7 cs = [].
Proof.
  intros HN HA Hr. change (NewPolicy :: RegisterDrop 0 7 :: Construct 0 :: h2) with ([NewPolicy] ++ RegisterDrop 0 7 :: (Construct 0 :: h2)) in *.
  rewrite (C90_exact_drops [NewPolicy] 0 7 (Construct 0 :: h2) w cs (mkFacts [] [] false)) ; auto.
  - (* nothing can be added to object 0 *)
    assert (HE : added_to 0 (Construct 0 :: h2) = []).
    { assert (Hno : forall x, ~ In (Add 0 x) h2).
      { intros x Hx. apply in_split in Hx as (l1 & l2 & ->).
        destruct (HA (NewPolicy :: RegisterDrop 0 7 :: Construct 0 :: l1) (Add 0 x) l2 eq_refl) as (f & Hf & Hs).
        assert (Hkeep : forall l (base : list (facts (nat * E))), (exists f0 t, base = f0 :: t /\ is_sync f0 = false) ->
                  exists f0 t, fold_left note l base = f0 :: t /\ is_sync f0 = false).
        { clear. induction l as [|o l IH]; intros base (f0 & t & -> & H0); [cbn; eauto|]. cbn [fold_left]. apply IH.
          destruct o as [|j|j|j j'|j c|j x]; cbn [note]; eauto.
          - exists f0, (t ++ [mkFacts [] [] false]). auto.
          - destruct (nth_error (f0 :: t) j) as [g|]; eauto. eexists f0, _. split; [reflexivity|auto].
          - destruct (nth_error (f0 :: t) j) as [g|]; eauto. eexists f0, _. split; [reflexivity|auto].
          - destruct (nth_error (f0 :: t) j) as [g|] eqn:Hg; eauto. destruct j as [|j]; cbn [upd].
            + cbn in Hg. injection Hg as <-. eexists _, _. split; [reflexivity|exact H0].
            + eexists f0, _. split; [reflexivity|auto]. }
        destruct (Hkeep l1 (known [NewPolicy; RegisterDrop 0 7; Construct 0])) as (f0 & t & H1 & H2).
        { cbn. eexists _, _. split; reflexivity. }
        change (NewPolicy :: RegisterDrop 0 7 :: Construct 0 :: l1) with ([NewPolicy; RegisterDrop 0 7; Construct 0] ++ l1) in Hf.
        unfold known in *. rewrite fold_left_app in Hf. rewrite H1 in Hf. cbn in Hf. injection Hf as <-. congruence. }
      cbn. clear - Hno. induction h2 as [|o l IH]; [reflexivity|]. unfold added_to in *. cbn [flat_map]. rewrite IH by (intros x Hx; apply (Hno x); now right).
      destruct o as [|j|j|j j'|j c|j x]; try reflexivity. destruct (Nat.eqb_spec j 0) as [->|]; [|reflexivity]. elim (Hno x). now left. }
    rewrite HE. reflexivity.
  - intros j H. apply in_app_or in H as [H|[H|H]]; [destruct H as [H|[]]; discriminate H|discriminate H|]. now apply (HN j).
Qed.
End Exact.

(** * ApproximateEpsilonTime *)
Section Eps.
Context {E : Type} (stamp : E -> Z) (n q : nat) (eps : Z).
Notation init := (@Eps_Model.init E n).
Notation run1 := (Eps_Model.run stamp n q eps).
Notation program := (run init (Eps_Model.add stamp n q eps) eps_copy eps_assign (fun _ => false) []).

Lemma eps_run_policy s h : run_policy (Eps_Model.add stamp n q eps) s h = run1 s h.
Proof. revert s. induction h as [|x h IH]; intros s; [reflexivity|]. cbn. destruct (Eps_Model.add stamp n q eps s x) as [[s1 o1]|]; [|reflexivity]. cbn. now rewrite IH. Qed.

(** C90 for ApproximateEpsilonTime, for copies of policies not used before: no program fails, and
    every synchronizer gives its callbacks exactly the sets made of the messages added to it. *)
Theorem C90_eps_independent_partial h :
  (forall e, stamp e <= RclTime.int64_max)%Z -> 0 < n -> (0 <= eps)%Z ->
  allowed h -> copied_when (fun received => received = []) h -> adding (fun x => fst x < n) h ->
  exists w cs, program h = Ok (w, cs) /\
    forall k f, nth_error (known h) k = Some f ->
      exists s outs, run1 init (own f) = Ok (s, outs) /\ sets_for k cs = outs.
Proof.
  intros H64 Hn He HA HU HI.
  assert (HC : copied_when (faithful init (Eps_Model.add stamp n q eps) eps_copy) h).
  { intros h1 o h2 k f Hh Ho Hf. rewrite (HU h1 o h2 k f Hh Ho Hf). intros s o' H. cbn in H. injection H as <- _. reflexivity. }
  assert (Htotal : forall l, Forall (fun x => fst x < n) l -> exists s o, run_policy (Eps_Model.add stamp n q eps) init l = Ok (s, o)).
  { intros l Hl. rewrite eps_run_policy. apply (Eps_Props.C25_eps_total stamp H64 n q eps l); auto.
    intros i e Hx. rewrite Forall_forall in Hl. exact (Hl (i, e) Hx). }
  destruct (run_ok init (Eps_Model.add stamp n q eps) eps_copy eps_assign (fun _ => false) (fun x => fst x < n) h Htotal HA HC HI) as (w & cs & Hr).
  exists w, cs. split; [exact Hr|]. intros k f Hf. destruct (run_Good _ _ _ _ _ h w cs HA HC Hr) as [GL GO _].
  destruct (nth_error w k) as [b|] eqn:Hb.
  2:{ apply nth_error_None in Hb. assert (k < length (known h)) by (apply nth_error_Some; congruence). lia. }
  destruct (GO k f b Hf Hb) as (_ & s1 & o1 & o2 & H1 & H2 & H3). rewrite eps_run_policy in H1, H2.
  (* nothing is inherited *)
  assert (HI0 : inherited f = []).
  { clear - HU Hf HA. revert k f Hf. induction h as [|o h IH] using rev_ind; intros k f Hf; [destruct k; discriminate|].
    assert (HU' : copied_when (fun received => received = []) h) by (eapply copied_when_prefix; eauto).
    assert (HA' : allowed h) by (eapply allowed_prefix; eauto).
    rewrite known_snoc in Hf. specialize (IH HA' HU').
    assert (Hadd : forall g, inherited g = [] -> nth_error (known h ++ [g]) k = Some f -> inherited f = []).
    { intros g Hg H. destruct (Nat.lt_ge_cases k (length (known h))) as [Hk|Hk].
      - rewrite nth_error_app1 in H by auto. eauto.
      - rewrite nth_error_app2 in H by auto. destruct (k - length (known h)) as [|[|m]]; cbn in H; try discriminate. now injection H as <-. }
    destruct o as [|j|j|j j'|j c|j x]; cbn [note] in Hf; eauto.
    - eapply Hadd; [|exact Hf]. reflexivity.
    - destruct (nth_error (known h) j) as [g|] eqn:Hg; eauto. eapply Hadd; [|exact Hf]. cbn. apply (HU h (CopyPolicy j) [] j g); auto.
    - destruct (nth_error (known h) j) as [g|] eqn:Hg; eauto. eapply Hadd; [|exact Hf]. cbn. apply (HU h (Construct j) [] j g); auto.
    - destruct (nth_error (known h) j) as [g|] eqn:Hg; eauto. rewrite nth_error_upd in Hf. destruct (Nat.eqb_spec j k) as [->|]; eauto.
      destruct (k <? length (known h)); [|discriminate]. injection Hf as <-. cbn. eauto. }
  rewrite HI0 in H1. cbn in H1. injection H1 as <- <-. exists (content b), o2. split; [exact H2|]. rewrite H3. apply filter_all.
Qed.
End Eps.

(** Copies of a policy in use are broken: once the source holds a message, a synchronizer with two
    inputs constructed from it never outputs anything, whatever is added to it. *)
Definition stalled {E} (s : Eps_Model.state E) : Prop :=
  exists a v w, s = Eps_Model.mkState (match w with [] => 0 | _ => 1 end) [a :: v; w].
Lemma stalled_add {E} (stamp : E -> Z) q eps s x :
  0 < q -> fst x < 2 -> stalled s -> exists s', Eps_Model.add stamp 2 q eps s x = Ok (s', []) /\ stalled s'.
Proof.
  intros Hq Hx (a & v & w & ->). destruct x as [[|[|i]] e]; cbn [fst] in Hx; try lia.
  - unfold Eps_Model.add. cbn [nth_error Eps_Model.events Eps_Model.count upd].
    replace ((match w with [] => 0 | _ => 1 end) =? 2) with false by (destruct w; reflexivity).
    destruct (Nat.ltb_spec q (length ((a :: v) ++ [e]))).
    + cbn [app]. destruct v as [|a' v]; cbn [app Eps_Model.erase_beginning]; rewrite Nat.sub_0_r; (eexists; split; [reflexivity|]).
      * exists e, [], w. reflexivity.
      * exists a', (v ++ [e]), w. reflexivity.
    + eexists. split; [reflexivity|]. exists a, (v ++ [e]), w. reflexivity.
  - unfold Eps_Model.add. cbn [nth_error Eps_Model.events Eps_Model.count upd].
    replace ((match w with [] => S (match w with [] => 0 | _ => 1 end) | _ => (match w with [] => 0 | _ => 1 end) end)) with 1 by (destruct w; reflexivity).
    cbn [Nat.eqb]. destruct (Nat.ltb_spec q (length (w ++ [e]))) as [H|H].
    + destruct w as [|b w]; [cbn in H; lia|]. cbn [app]. destruct w as [|b' w]; cbn [app Eps_Model.erase_beginning]; rewrite Nat.sub_0_r; (eexists; split; [reflexivity|]).
      * exists a, v, [e]. reflexivity.
      * exists a, v, (b' :: w ++ [e]). reflexivity.
    + eexists. split; [reflexivity|]. exists a, v, (w ++ [e]). destruct w; reflexivity.
Qed.
Theorem C90_eps_used_refuted {E} (stamp : E -> Z) q eps (e : E) (h : list (nat * E)) :
  0 < q -> (forall x, In x h -> fst x < 2) ->
  exists w, run (Eps_Model.init 2) (Eps_Model.add stamp 2 q eps) eps_copy eps_assign (fun _ => false) []
              ([NewPolicy; Construct 0; Add 1 (0, e); Construct 1] ++ map (Add 2) h) = Ok (w, []).
Proof.
  intros Hq HI. set (P := run _ _ _ _ _).
  assert (HS : forall w0 w1 s, stalled s ->
            exists w, P [w0; w1; mkObject (Some 2) [] s] (map (Add 2) h) = Ok (w, [])).
  { induction h as [|x h IH]; intros w0 w1 s Hs; [subst P; cbn; eauto|].
    destruct (stalled_add stamp q eps s x Hq) as (s' & E1 & Hs'); [apply HI; now left|exact Hs|].
    destruct (IH) with (w0 := w0) (w1 := w1) (s := s') as (w & Hw); auto. { intros y Hy. apply HI. now right. }
    exists w. subst P. cbn [map run step nth_error parent content drop_callbacks]. rewrite E1. cbn [bind flat_map upd]. rewrite Hw. reflexivity. }
  subst P. rewrite run_app.
  assert (Hstart : exists w0 w1 s, stalled s /\
            run (Eps_Model.init 2) (Eps_Model.add stamp 2 q eps) eps_copy eps_assign (fun _ => false) []
              [NewPolicy; Construct 0; Add 1 (0, e); Construct 1] = Ok ([w0; w1; mkObject (Some 2) [] s], [])).
  { cbn [run step nth_error parent content drop_callbacks bind app length eps_copy].
    assert (Hadd : Eps_Model.add stamp 2 q eps (eps_copy (Eps_Model.init 2)) (0, e) = Ok (Eps_Model.mkState 1 [[e]; []], [])).
    { unfold Eps_Model.add. cbn. destruct q; [lia|reflexivity]. }
    unfold eps_copy in Hadd at 1. unfold eps_copy at 1. rewrite Hadd. cbn. do 3 eexists. split; [|reflexivity]. exists e, [], []. reflexivity. }
  destruct Hstart as (w0 & w1 & s & Hs & ->). cbn [bind]. destruct (HS w0 w1 s Hs) as (w & ->). cbn. eauto.
Qed.

(** * ApproximateTime *)
Section Approx.
Context {E : Type} (stamp : E -> Z) (c : Approx_Model.cfg).
Notation init := (@Approx_Model.init E c).
Notation run1 := (Approx_Model.run stamp c).
Notation program := (run init (Approx_Model.add stamp c) Approx_Model.copy approx_assign (fun _ => false) []).

Lemma approx_run_policy s h : run_policy (Approx_Model.add stamp c) s h = run1 s h.
Proof. revert s. induction h as [|x h IH]; intros s; [reflexivity|]. cbn. destruct (Approx_Model.add stamp c s x) as [[s1 o1]|]; [|reflexivity]. cbn. now rewrite IH. Qed.

(** C90 for ApproximateTime, for copies of policies that are not in the middle of a search for a
    set (policies not used before, in particular); otherwise see C61. *)
Theorem C90_approx_independent_partial h :
  0 < Approx_Model.n c -> 0 < Approx_Model.queue_size c ->
  allowed h -> adding (fun x => fst x < Approx_Model.n c) h ->
  copied_when (fun received => forall s o, run1 init received = Ok (s, o) -> Approx_Model.pivot s = None) h ->
  exists w cs, program h = Ok (w, cs) /\
    forall k f, nth_error (known h) k = Some f ->
      exists s1 o1 s2 o2, run1 init (inherited f) = Ok (s1, o1) /\ run1 s1 (own f) = Ok (s2, o2) /\ sets_for k cs = o2.
Proof.
  intros Hn Hq HA HI HU.
  assert (HW : forall l : list (nat * E), Forall (fun x => fst x < Approx_Model.n c) l -> Approx_Spec.well_indexed (Approx_Model.n c) l).
  { intros l Hl i e Hx. rewrite Forall_forall in Hl. exact (Hl (i, e) Hx). }
  assert (HC : copied_when (faithful init (Approx_Model.add stamp c) Approx_Model.copy) h).
  { intros h1 o h2 k f Hh Ho Hf s o' H. rewrite approx_run_policy in H.
    apply (Approx_More.copy_idle stamp c (lineage f) s o'); auto; [|eapply HU; eauto].
    apply HW. eapply known_good; [|exact Hf]. intros k' x Hx. apply (HI k'). rewrite Hh. apply in_or_app; auto. }
  assert (Htotal : forall l, Forall (fun x => fst x < Approx_Model.n c) l -> exists s o, run_policy (Approx_Model.add stamp c) init l = Ok (s, o)).
  { intros l Hl. rewrite approx_run_policy. apply Approx_Props.C27_approx_never_fails; auto. }
  destruct (run_ok init (Approx_Model.add stamp c) Approx_Model.copy approx_assign (fun _ => false) _ h Htotal HA HC HI) as (w & cs & Hr).
  exists w, cs. split; [exact Hr|]. intros k f Hf. destruct (run_Good _ _ _ _ _ h w cs HA HC Hr) as [GL GO _].
  destruct (nth_error w k) as [b|] eqn:Hb.
  2:{ apply nth_error_None in Hb. assert (k < length (known h)) by (apply nth_error_Some; congruence). lia. }
  destruct (GO k f b Hf Hb) as (_ & s1 & o1 & o2 & H1 & H2 & H3). rewrite approx_run_policy in H1, H2.
  exists s1, o1, (content b), o2. split; [exact H1|]. split; [exact H2|]. rewrite H3. apply filter_all.
Qed.
End Approx.

(** * Assignment *)
(** Assigning a policy object to (the policy of) a synchronizer cuts it off from its callbacks: the
    next message violates an assertion ... *)
Theorem C90_assign_policy_refuted {S I O} (pinit : S) pstep pcopy passign (is_drop : O -> bool) (x : I) :
  run pinit pstep pcopy passign is_drop [] [NewPolicy; Construct 0; Assign 1 0; Add 1 x] = Err AssertFailed.
Proof. reflexivity. Qed.
(** ... and assigning that of another synchronizer sends its sets to the callbacks of that one. *)
Theorem C90_assign_synchronizer_refuted {E} (stamp : E -> Z) (e : E) :
  exists w, run (@Exact_Model.init E) (exact_step stamp 1 10) exact_copy (fun _ b => b) exact_is_drop []
    [NewPolicy; Construct 0; Construct 0; Assign 2 1; Add 2 (0, e)] = Ok (w, [(Synced 1, Exact_Model.Signal [e])]).
Proof. cbn. unfold Exact_Model.checkTuple, Exact_Model.erase. cbn. rewrite Z.eqb_refl. cbn. eauto. Qed.

(** What assigning the policy of synchronizer [j] to that of synchronizer [k] does: from then on
    [k] continues where [j] is, and gives what it makes of its messages to the callbacks of [j],
    and nothing to its own (unless [k = j], where nothing changes). *)
Theorem C90_exact_assigned {E} (stamp : E -> Z) n q h w cs k j f g xs :
  allowed h -> run (@Exact_Model.init E) (exact_step stamp n q) exact_copy (fun _ b => b) exact_is_drop [] h = Ok (w, cs) ->
  nth_error (known h) k = Some f -> nth_error (known h) j = Some g -> is_sync g = true ->
  exists w' cs',
    run (@Exact_Model.init E) (exact_step stamp n q) exact_copy (fun _ b => b) exact_is_drop [] (h ++ Assign k j :: map (Add k) xs) = Ok (w', cs ++ cs') /\
    forall i, sets_for i cs' = if i =? j then filter (fun o => negb (exact_is_drop o))
      (snd (Exact_Model.run stamp n q (fst (Exact_Model.run stamp n q Exact_Model.init (lineage g))) xs)) else [].
Proof.
  intros HA Hr Hf Hg Hs.
  assert (HC : copied_when (faithful (@Exact_Model.init E) (exact_step stamp n q) exact_copy) h) by (intros h1 o h2 k' f' _ _ _ s o' _; reflexivity).
  destruct (run_Good _ _ _ _ _ h w cs HA HC Hr) as [GL GO _].
  assert (Hk : k < length w) by (rewrite GL; apply nth_error_Some; congruence).
  assert (Hj : j < length w) by (rewrite GL; apply nth_error_Some; congruence).
  destruct (nth_error w k) as [a|] eqn:Ha; [|apply nth_error_None in Ha; lia].
  destruct (nth_error w j) as [b|] eqn:Hb; [|apply nth_error_None in Hb; lia].
  pose proof (GO j g b Hg Hb) as HD. destruct (proj1 HD Hs).
  destruct (describes_lineage _ _ _ g b j cs HD) as (o & Ho). rewrite exact_run_policy in Ho.
  destruct (Exact_Model.run stamp n q Exact_Model.init (lineage g)) as [s0 o0] eqn:E0. injection Ho as -> ->. cbn [fst].
  destruct (Exact_Model.run stamp n q (content b) xs) as [s1 o1] eqn:E1.
  rewrite run_app, Hr. cbn [bind]. rewrite (assigned_run _ _ _ _ _ w k j a b j xs s1 o1); auto.
  - cbn [bind]. eexists _, _. split; [reflexivity|]. intros i. rewrite sets_for_deliver, Nat.eqb_sym. reflexivity.
  - exact (proj1 HD Hs).
  - rewrite exact_run_policy. now rewrite E1.
Qed.

(** The same for ApproximateTime, if neither is in the middle of a search for a set or if [k = j]. *)
Theorem C90_approx_assigned_partial {E} (stamp : E -> Z) c h w cs k j f g xs :
  0 < Approx_Model.n c -> 0 < Approx_Model.queue_size c ->
  allowed h -> adding (fun x => fst x < Approx_Model.n c) h -> Forall (fun x => fst x < Approx_Model.n c) xs ->
  copied_when (fun received => forall s o, Approx_Model.run stamp c (@Approx_Model.init E c) received = Ok (s, o) -> Approx_Model.pivot s = None) h ->
  run (@Approx_Model.init E c) (Approx_Model.add stamp c) Approx_Model.copy approx_assign (fun _ => false) [] h = Ok (w, cs) ->
  nth_error (known h) k = Some f -> nth_error (known h) j = Some g -> is_sync g = true ->
  k = j \/ (forall l s o, l = lineage f \/ l = lineage g -> Approx_Model.run stamp c (@Approx_Model.init E c) l = Ok (s, o) -> Approx_Model.pivot s = None) ->
  exists w' cs' s1 o1 s2 o2,
    run (@Approx_Model.init E c) (Approx_Model.add stamp c) Approx_Model.copy approx_assign (fun _ => false) [] (h ++ Assign k j :: map (Add k) xs) = Ok (w', cs ++ cs') /\
    Approx_Model.run stamp c (@Approx_Model.init E c) (lineage g) = Ok (s1, o1) /\ Approx_Model.run stamp c s1 xs = Ok (s2, o2) /\
    forall i, sets_for i cs' = if i =? j then o2 else [].
Proof.
  intros Hn Hq HA HI Hxs HU Hr Hf Hg Hs Hidle.
  assert (HW : forall l : list (nat * E), Forall (fun x => fst x < Approx_Model.n c) l -> Approx_Spec.well_indexed (Approx_Model.n c) l).
  { intros l Hl i e Hx. rewrite Forall_forall in Hl. exact (Hl (i, e) Hx). }
  assert (HK : forall k f, nth_error (known h) k = Some f -> Approx_Spec.well_indexed (Approx_Model.n c) (lineage f)).
  { intros k' f' Hf'. apply HW. eapply known_good; [|exact Hf']. intros k'' x Hx. now apply (HI k''). }
  assert (HC : copied_when (faithful (@Approx_Model.init E c) (Approx_Model.add stamp c) Approx_Model.copy) h).
  { intros h1 o h2 k' f' Hh Ho Hf' s o' H. rewrite approx_run_policy in H.
    apply (Approx_More.copy_idle stamp c (lineage f') s o'); auto; [|eapply HU; eauto].
    apply HW. eapply known_good; [|exact Hf']. intros k'' x Hx. apply (HI k''). rewrite Hh. apply in_or_app; auto. }
  destruct (run_Good _ _ _ _ _ h w cs HA HC Hr) as [GL GO _].
  assert (Hk : k < length w) by (rewrite GL; apply nth_error_Some; congruence).
  assert (Hj : j < length w) by (rewrite GL; apply nth_error_Some; congruence).
  destruct (nth_error w k) as [a|] eqn:Ha; [|apply nth_error_None in Ha; lia].
  destruct (nth_error w j) as [b|] eqn:Hb; [|apply nth_error_None in Hb; lia].
  pose proof (GO j g b Hg Hb) as HD.
  destruct (describes_lineage _ _ _ g b j cs HD) as (o & Ho). rewrite approx_run_policy in Ho.
  destruct (describes_lineage _ _ _ f a k cs (GO k f a Hf Ha)) as (o' & Ho'). rewrite approx_run_policy in Ho'.
  assert (Hcont : approx_assign (content a) (content b) = content b).
  { destruct Hidle as [->|Hidle].
    - replace a with b by congruence. now destruct (content b).
    - pose proof (Approx_More.run_candidate stamp c _ _ _ Hn Hq (HK _ _ Hf) Ho' (Hidle _ _ _ (or_introl eq_refl) Ho')) as Hca.
      pose proof (Approx_More.run_candidate stamp c _ _ _ Hn Hq (HK _ _ Hg) Ho (Hidle _ _ _ (or_intror eq_refl) Ho)) as Hcb.
      unfold approx_assign. rewrite Hca, <- Hcb. now destruct (content b). }
  destruct (Approx_Props.C27_approx_never_fails stamp c (lineage g ++ xs)) as (s2 & o2 & H2); auto.
  { intros i e Hx. apply in_app_or in Hx as [Hx|Hx]; [eapply HK; eauto|eapply HW; eauto]. }
  rewrite <- approx_run_policy, run_policy_app, !approx_run_policy, Ho in H2. cbn [bind] in H2.
  rewrite approx_run_policy in H2.
  destruct (Approx_Model.run stamp c (content b) xs) as [[s3 o3]|] eqn:E3; [|discriminate].
  rewrite run_app, Hr. cbn [bind]. rewrite (assigned_run _ _ _ _ _ w k j a b j xs s3 o3); auto.
  - cbn [bind]. eexists _, _, (content b), o, s3, o3. split; [reflexivity|]. split; [exact Ho|]. split; [exact E3|].
    intros i. rewrite sets_for_deliver, Nat.eqb_sym, filter_all. reflexivity.
  - exact (proj1 HD Hs).
  - now rewrite Hcont, approx_run_policy.
Qed.

(** Assigning the policy of a synchronizer with ApproximateEpsilonTime to itself changes nothing. *)
Theorem C90_eps_self_assigned {E} (stamp : E -> Z) n q eps h w cs k f :
  run (@Eps_Model.init E n) (Eps_Model.add stamp n q eps) eps_copy eps_assign (fun _ => false) [] h = Ok (w, cs) ->
  nth_error w k = Some f ->
  run (@Eps_Model.init E n) (Eps_Model.add stamp n q eps) eps_copy eps_assign (fun _ => false) [] (h ++ [Assign k k]) = Ok (w, cs).
Proof.
  intros Hr Hf. rewrite run_snoc, Hr. cbn [bind step]. rewrite Hf. cbn [bind]. rewrite app_nil_r. do 2 f_equal.
  replace (mkObject _ _ _) with f by (destruct f as [p d []]; reflexivity).
  rewrite <- (nth_error_nth w k f Hf) at 1. apply upd_nth_id.
Qed.

(** * Concrete cases *)
Local Open Scope Z_scope.
Definition ex_program : list (op (nat * Z)) :=
  [NewPolicy; Construct 0; Add 1 (0%nat, 5); Construct 1; RegisterDrop 2 3; Add 2 (1%nat, 5); Add 1 (1%nat, 7); Add 1 (0%nat, 7); Add 2 (0%nat, 8); Add 2 (0%nat, 9); Add 2 (1%nat, 9)].
Example C90_exact_nonvacuous :
  allowed ex_program /\
  exists w, run (@Exact_Model.init Z) (exact_step (fun z => z) 2 10) exact_copy (fun _ b => b) exact_is_drop [] ex_program =
    Ok (w, [(Synced 2, Exact_Model.Signal [5; 5]); (Synced 1, Exact_Model.Signal [7; 7]);
            (Synced 2, Exact_Model.Signal [9; 9]); (Dropped 3, Exact_Model.Drop [Some 8; None])]).
Proof.
  split.
  - intros h1 o h2 H. unfold ex_program in H.
    repeat (destruct h1 as [|? h1]; [injection H as <- _; cbn; (exact Logic.I || lia || (eexists; split; reflexivity))|injection H as <- H]).
    destruct h1; discriminate H.
  - eexists. vm_compute. reflexivity.
Qed.
Example C90_exact_drop_nonvacuous :
  allowed (NewPolicy :: RegisterDrop 0 7 :: Construct 0 :: [Add 1 (0%nat, 8); Add 1 (0%nat, 9); Add 1 (1%nat, 9)]) /\
  snd (Exact_Model.run (fun z => z) 2 10 Exact_Model.init [(0%nat, 8); (0%nat, 9); (1%nat, 9)]) =
    [Exact_Model.Signal [9; 9]; Exact_Model.Drop [Some 8; None]].
Proof.
  split; [|reflexivity]. intros h1 o h2 H.
  repeat (destruct h1 as [|? h1]; [injection H as <- _; cbn; (exact Logic.I || lia || (eexists; split; reflexivity))|injection H as <- H]).
  destruct h1; discriminate H.
Qed.
Definition ex_shared : list (op (nat * Z)) :=
  [NewPolicy; Construct 0; Construct 0; Add 1 (0%nat, 5); Add 2 (0%nat, 6); Add 2 (1%nat, 6); Add 1 (1%nat, 5)].
Example C90_shared_allowed : allowed ex_shared /\ copied_when (fun received => received = []) ex_shared /\ adding (fun x => (fst x < 2)%nat) ex_shared.
Proof.
  split; [|split].
  - intros h1 o h2 H. unfold ex_shared in H.
    repeat (destruct h1 as [|? h1]; [injection H as <- _; cbn; (exact Logic.I || lia || (eexists; split; reflexivity))|injection H as <- H]).
    destruct h1; discriminate H.
  - intros h1 o h2 k f H Ho Hf. unfold ex_shared in H.
    repeat (destruct h1 as [|? h1]; [injection H as <- _; destruct Ho as [Ho|Ho]; try discriminate Ho; injection Ho as <-; cbn in Hf; injection Hf as <-; reflexivity|injection H as <- H]).
    destruct h1; discriminate H.
  - intros k x H. cbn in H. repeat (destruct H as [H|H]; [try discriminate H; injection H as <- <-; cbn; lia|]). contradiction.
Qed.
Example C90_eps_nonvacuous :
  exists w, run (@Eps_Model.init Z 2) (Eps_Model.add (fun z => Z.min z RclTime.int64_max) 2 10 1) eps_copy eps_assign (fun _ => false) [] ex_shared =
    Ok (w, [(Synced 2, [6; 6]); (Synced 1, [5; 5])]).
Proof. eexists. vm_compute. reflexivity. Qed.
Example C90_approx_nonvacuous :
  exists w, run (@Approx_Model.init Z (Approx_Props.cfg2 10 0)) (Approx_Model.add (fun z => z) (Approx_Props.cfg2 10 0)) Approx_Model.copy approx_assign
    (fun _ => false) [] ex_shared = Ok (w, [(Synced 2, [6; 6]); (Synced 1, [5; 5])]).
Proof. eexists. vm_compute. reflexivity. Qed.
Definition ex_assign : list (op (nat * Z)) := [NewPolicy; Construct 0; Construct 0; Add 1 (0%nat, 5); Add 2 (0%nat, 4)].
Example C90_assigned_nonvacuous :
  allowed ex_assign /\ copied_when (fun received => received = []) ex_assign /\ map is_sync (known ex_assign) = [false; true; true] /\
  (exists w, run (@Exact_Model.init Z) (exact_step (fun z => z) 2 10) exact_copy (fun _ b => b) exact_is_drop []
    (ex_assign ++ Assign 2 1 :: map (Add 2) [(1%nat, 5)]) = Ok (w, [(Synced 1, Exact_Model.Signal [5; 5])])) /\
  (exists w, run (@Approx_Model.init Z (Approx_Props.cfg2 10 0)) (Approx_Model.add (fun z => z) (Approx_Props.cfg2 10 0)) Approx_Model.copy approx_assign
    (fun _ => false) [] (ex_assign ++ Assign 2 1 :: map (Add 2) [(1%nat, 5)]) = Ok (w, [(Synced 1, [5; 5])])) /\
  (exists w, run (@Eps_Model.init Z 2) (Eps_Model.add (fun z => z) 2 10 1) eps_copy eps_assign (fun _ => false) []
    (ex_assign ++ [Assign 1 1; Add 1 (1%nat, 5)]) = Ok (w, [(Synced 1, [5; 5])])).
Proof.
  split; [|split; [|split; [reflexivity|repeat split; eexists; vm_compute; reflexivity]]].
  - intros h1 o h2 H. unfold ex_assign in H.
    repeat (destruct h1 as [|? h1]; [injection H as <- _; cbn; (exact Logic.I || lia || (eexists; split; reflexivity))|injection H as <- H]).
    destruct h1; discriminate H.
  - intros h1 o h2 k f H Ho Hf. unfold ex_assign in H.
    repeat (destruct h1 as [|? h1]; [injection H as <- _; destruct Ho as [Ho|Ho]; try discriminate Ho; injection Ho as <-; cbn in Hf; injection Hf as <-; reflexivity|injection H as <- H]).
    destruct h1; discriminate H.
Qed.

Print Assumptions C90_exact_independent.
Print Assumptions C90_exact_drops.
Print Assumptions C90_exact_drop_callback_lost_refuted.
Print Assumptions C90_eps_independent_partial.
Print Assumptions C90_eps_used_refuted.
Print Assumptions C90_approx_independent_partial.
Print Assumptions C90_assign_policy_refuted.
Print Assumptions C90_assign_synchronizer_refuted.
Print Assumptions C90_exact_assigned.
Print Assumptions C90_approx_assigned_partial.
Print Assumptions C90_eps_self_assigned.
