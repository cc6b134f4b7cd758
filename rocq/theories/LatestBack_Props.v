(** C122: output callbacks may reconfigure the LatestTime policy that calls them. *)
From Coq Require Import List Arith ZArith QArith Lia Bool.
From Verif Require Import Base RclTime Trace Latest_Model Latest_Spec Latest_Proofs Latest_Props
  LatestBack_Model LatestBack_Spec LatestBack_Proofs.
Import ListNotations.
Local Open Scope nat_scope.

Module ExB.
  (** clocks 0 and 1 show ROS time, clock 2 system time *)
  Definition src (k : nat) : clock := match k with 0 | 1 => RosClock | _ => SystemClock end.
  Definition R (ms : Z) : nat -> Z := fun _ => (ms * 1000000)%Z.
  Definition A (i e : nat) (ms : Z) : call nat Q := CAdd i e (R ms).
  (** two inputs, about 20 ms apart; input 0 pauses *)
  Definition h : list (call nat Q) :=
    [A 0 1 0; A 1 2 0; A 0 3 20; A 1 4 20; A 0 5 38; A 1 6 42; A 0 7 60; A 1 8 62; A 1 9 84; A 1 10 106; A 1 11 126; A 0 12 150].
  Definition outs {X Y} (r : res (X * Y)) : option Y := match r with Ok (_, o) => Some o | _ => None end.
  Definition go cb := option_map all_published (outs (run_cb Ex.qops 2 Ex.dflt src cb (init_cb 2 0) [] h)).
  Definition other : config Q := mkConfig (9 # 10)%Q (3 # 10)%Q 0%Q.
  Definition none (_ : list (list nat)) : list (call nat Q) := [].
  Definition reconf (_ : list (list nat)) : list (call nat Q) := [CConfig [other]; CClock 1].
  Definition toclock (_ : list (list nat)) : list (call nat Q) := [CClock 2].
  Definition adding (_ : list (list nat)) : list (call nat Q) := [A 0 9 60].
End ExB.

(** Without calls, with a configuration set in every callback, with the clock replaced by one of
    another source, with an addition. *)
Example C122_ex_none : ExB.go ExB.none = Some [[3; 2]; [5; 4]; [7; 6]; [7; 8]; [7; 11]].
Proof. vm_compute. reflexivity. Qed.
Example C122_ex_reconf : ExB.go ExB.reconf = Some [[3; 2]; [5; 4]; [7; 6]; [7; 8]; [7; 11]].
Proof. vm_compute. reflexivity. Qed.
Example C122_ex_toclock : ExB.go ExB.toclock = Some [[3; 2]].
Proof. vm_compute. reflexivity. Qed.
Example C122_ex_adding : run_cb Ex.qops 2 Ex.dflt ExB.src ExB.adding (init_cb 2 0) [] ExB.h = Err Deadlock.
Proof. vm_compute. reflexivity. Qed.
(** The same configuration set before the first message does make a difference. *)
Example C122_ex_before :
  option_map all_published (ExB.outs (run_cb Ex.qops 2 Ex.dflt ExB.src ExB.none (init_cb 2 0) [] (CConfig [ExB.other] :: ExB.h)))
  = Some [[3; 2]; [5; 4]; [7; 8]; [7; 9]; [7; 11]; [12; 11]].
Proof. vm_compute. reflexivity. Qed.

Section Props.
Context {E D : Type} (f : fops D) (n : nat) (d : config D) (src : nat -> clock).
Variable cb : list (list E) -> list (call E D).
Notation run_cb := (run_cb f n d src cb).
Notation init_cb := (init_cb (E := E) (D := D) n).
Notation init := (init (E := E) (D := D) n).

(** Every run is a run of a policy without callbacks, with the same outcome of every call, in
    which each message arrives at the time of the clock then in use; the configurations set in
    callbacks do not occur in it. *)
Theorem C122_configurations_of_callbacks_do_not_count k h s xs :
  never_adds cb -> run_cb (init_cb k) [] h = Ok (s, xs) ->
  exists s', run f n d init (script src cb k [] [] h xs) = Ok (s', xs) /\
    events s' = events (pol s) /\ rates s' = rates (pol s).
Proof.
  intros Hcb Hr. assert (HS : sim (pol (init_cb k)) init) by (split; auto).
  destruct (run_script f n d src cb Hcb _ _ _ _ _ _ HS Hr) as (b & Hb & (E1 & E2 & _) & _). exists b. auto.
Qed.

(** Also when set from outside, a configuration has no effect once every input has a message. *)
Theorem C122_late_configuration_does_not_count h1 cs h2 s xs :
  well_indexed n h1 -> (forall i, i < n -> received i h1 <> []) ->
  run f n d init (h1 ++ SetConfig cs :: h2) = Ok (s, xs) ->
  exists s' xs1 xs2, run f n d init (h1 ++ h2) = Ok (s', xs1 ++ xs2) /\ xs = xs1 ++ Quiet :: xs2 /\
    length xs1 = length h1 /\ events s' = events s /\ rates s' = rates s.
Proof. apply late_config. Qed.

(** What is passed on are still the latest messages of all inputs, and only by an addition. *)
Theorem C122_sets_are_the_latest_messages k h1 c h2 s xs set :
  never_adds cb -> well_indexed n (untimed (h1 ++ c :: h2)) ->
  run_cb (init_cb k) [] (h1 ++ c :: h2) = Ok (s, xs) -> nth_error xs (length h1) = Some (Published set) ->
  exists i e r, c = CAdd i e r /\ length set = n /\
    forall j, j < n -> nth_error set j = latest j (untimed (h1 ++ [c])).
Proof. intros Hcb. now apply published_at. Qed.

(** Callbacks that do not add neither cause nor prevent a failure: a run is without undefined
    behaviour exactly if inputs start as C36 requires. *)
Theorem C122_safe_iff_enough_started k h :
  never_adds cb -> well_indexed n (untimed h) ->
  ((exists s xs, run_cb (init_cb k) [] h = Ok (s, xs)) <-> enough_started n (untimed h)) /\
  (forall e, run_cb (init_cb k) [] h = Err e -> e = UB).
Proof.
  intros Hcb HW. pose proof (run_cb_inv f n d src cb Hcb k h HW) as H.
  destruct (run_cb (init_cb k) [] h) as [[s xs]|er].
  - destruct H as [_ H]. split; [split; eauto|discriminate].
  - destruct H as [-> H]. split; [|congruence]. split; [intros (? & ? & ?); discriminate|intros H'; now destruct H].
Qed.

(** The answers of the policy while all clocks set are of one source: no addition throws. *)
Theorem C122_clocks_of_one_source_never_throw K k h s xs :
  never_adds cb -> well_indexed n (untimed h) -> (forall k', src k' = K) ->
  run_cb (init_cb k) [] h = Ok (s, xs) -> ~ In Threw xs.
Proof.
  intros Hcb HW HK Hr.
  destruct (C122_configurations_of_callbacks_do_not_count k h s xs Hcb Hr) as (s' & Hs & _).
  assert (HO : one_clock K (script src cb k [] [] h xs)).
  { clear - HK. generalize (@nil (list E)) as seen. generalize (@nil (config D)) as conf. revert k xs.
    induction h as [|c h IH]; intros k xs conf seen i e t Hin; [destruct xs; destruct Hin|].
    destruct xs as [|x xs]; [destruct c; destruct Hin|].
    destruct c as [i0 e0 r|cs|k']; cbn [script] in Hin; destruct Hin as [H|Hin]; try discriminate;
      try (eapply IH; exact Hin). injection H as <- <- <-. apply HK. }
  pose proof (one_clock_inv f n d K _ _ _ (script_well_indexed n src cb k [] h [] xs HW) HO Hs) as (_ & H).
  exact H.
Qed.

(** A callback that replaces the clock by one of another source is called at most once. *)
Theorem C122_clock_of_another_source_silences k h s xs :
  never_adds cb -> well_indexed n (untimed h) -> (forall k', ~ In (CClock k') h) ->
  (forall k' o, src (clock_after k' (cb o)) <> src k) ->
  run_cb (init_cb k) [] h = Ok (s, xs) -> length (all_published xs) <= 1.
Proof. intros Hcb HW HN HC. now apply other_source. Qed.

(** A callback that adds blocks for ever the first time it is called, and changes nothing before. *)
Theorem C122_adding_in_a_callback_blocks k h s xs :
  adds_first cb -> LatestBack_Model.run_cb f n d src (fun _ => []) (init_cb k) [] h = Ok (s, xs) ->
  run_cb (init_cb k) [] h = match all_published xs with [] => Ok (s, xs) | _ => Err Deadlock end.
Proof. intros HF. now apply add_inside. Qed.
End Props.

(** The examples satisfy the hypotheses. *)
Example C122_ex_hyps :
  never_adds ExB.reconf /\ never_adds ExB.toclock /\ adds_first ExB.adding /\
  (forall k' o, ExB.src (clock_after k' (ExB.toclock o)) <> ExB.src 0) /\
  (exists s xs, run_cb Ex.qops 2 Ex.dflt ExB.src ExB.toclock (init_cb 2 0) [] ExB.h = Ok (s, xs)).
Proof.
  repeat split.
  - intros o i e r [H|[H|[]]]; discriminate.
  - intros o i e r [H|[]]; discriminate.
  - intros o. exists 0, 9, (ExB.R 60), []. reflexivity.
  - intros k' o. discriminate.
  - pose proof C122_ex_toclock as H. unfold ExB.go, ExB.outs in H.
    destruct (run_cb Ex.qops 2 Ex.dflt ExB.src ExB.toclock (init_cb 2 0) [] ExB.h) as [[s xs]|]; [eauto|discriminate].
Qed.

Print Assumptions C122_configurations_of_callbacks_do_not_count.
Print Assumptions C122_late_configuration_does_not_count.
Print Assumptions C122_sets_are_the_latest_messages.
Print Assumptions C122_safe_iff_enough_started.
Print Assumptions C122_clocks_of_one_source_never_throw.
Print Assumptions C122_clock_of_another_source_silences.
Print Assumptions C122_adding_in_a_callback_blocks.
