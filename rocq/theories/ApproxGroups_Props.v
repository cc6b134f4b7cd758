(** Property C110: ApproximateTime recovers the groups of messages that belong together. *)
From Coq Require Import List Arith ZArith Lia Bool Permutation Sorted.
From Verif Require Import Base RclTime Trace Approx_Model Approx_Spec Approx_Proofs Approx_Opt Approx_More Approx_Props
  ApproxGroups_Spec ApproxGroups_Proofs.
Import ListNotations.
Local Open Scope Z_scope.

Section Props.
Context {E : Type} (stamp : E -> Z) (group : E -> nat).

(** C110: with a maximum interval no shorter than every group and shorter than the time
    between groups, the sets output are the groups for which every input has a message,
    in order; groups some input misses are passed over. *)
Theorem C110_approx_outputs_groups c tol num den h s outs :
  (0 < n c)%nat -> (0 < queue_size c)%nat -> well_indexed (n c) h ->
  scaling tol num den (scale c) -> respects stamp (n c) (bound c) (fun i => stream i h) ->
  no_overflow stamp c h ->
  grouped stamp group (n c) (fun i => stream i h) (max_interval c) ->
  run stamp c (init c) h = Ok (s, outs) ->
  the_groups group (n c) (fun i => stream i h) outs.
Proof.
  intros Hn Hq HI SC HF Hno HG Hr.
  destruct (C60_approx_progress stamp c tol num den h s outs Hn Hq HI SC HF Hno Hr) as (base & HS & HE).
  eapply (all_groups stamp group c _ (max_interval c) HF Hn HG (max_interval c)
    (fun b x X => (next_set stamp (n c) (fun i => stream i h) num den (max_interval c) tol b x X /\
       found_set stamp (n c) (fun i => stream i h) (max_interval c) (scale c) b x X) /\ span stamp X <= max_interval c) outs base); eauto.
  - intros ct b x X HC [[H1 _] H2]. eapply stepped_narrow; eauto.
  - eapply admits_narrow; eauto.
  - apply (sets_from_forall (n c) _ (fun X => span stamp X <= max_interval c)); auto. rewrite Forall_forall. intros X HX.
    eapply C30_approx_max_interval; eauto.
Qed.

(** C110, without a maximum interval: the same, if no input misses a group. *)
Theorem C110_approx_outputs_groups_unlimited c tol num den h s outs w :
  (0 < n c)%nat -> (0 < queue_size c)%nat -> well_indexed (n c) h ->
  scaling tol num den (scale c) -> respects stamp (n c) (bound c) (fun i => stream i h) ->
  no_overflow stamp c h ->
  grouped stamp group (n c) (fun i => stream i h) w ->
  none_missing group (n c) (fun i => stream i h) ->
  (forall i j a b, (i < n c)%nat -> (j < n c)%nat -> In a (stream i h) -> In b (stream j h) ->
     stamp a - stamp b <= max_interval c) ->
  run stamp c (init c) h = Ok (s, outs) ->
  the_groups group (n c) (fun i => stream i h) outs.
Proof.
  intros Hn Hq HI SC HF Hno HG HM Hmx Hr.
  destruct (C60_approx_progress stamp c tol num den h s outs Hn Hq HI SC HF Hno Hr) as (base & HS & HE).
  destruct SC as [S1 S2 S3 _ _ _].
  eapply (all_groups stamp group c _ w HF Hn HG (max_interval c) _ outs base); [| |exact HS|exact HE].
  - intros ct b x X HC [H1 _]. eapply (stepped_unlimited stamp group c _ w num den tol HF Hn HG (max_interval c)); eauto.
  - eapply admits_unlimited; eauto.
Qed.
End Props.

(** ** examples: groups of ten time units *)
Definition tens (z : Z) : nat := Z.to_nat (z / 10).
Definition cfgw (w : Z) : cfg := mkCfg 2 10 w (scale_by 11 10) (fun _ => 0).

Definition grouped_check (w : Z) (l0 l1 : list Z) : bool :=
  forallb (fun a => forallb (fun b =>
    (if Nat.eqb (tens a) (tens b) then a - b <=? w else true) &&
    (if Nat.ltb (tens a) (tens b) then a + w <? b else true)) (l0 ++ l1)) (l0 ++ l1).

Lemma grouped_check_sound w l0 l1 : grouped_check w l0 l1 = true -> NoDup (map tens l0) -> NoDup (map tens l1) ->
  grouped (fun z => z) tens 2 (fun i => match i with O => l0 | _ => l1 end) w.
Proof.
  intros H N0 N1.
  assert (HA : forall i a, (i < 2)%nat -> In a (match i with O => l0 | _ => l1 end) -> In a (l0 ++ l1)).
  { intros [|i] a _ Ha; apply in_or_app; auto. }
  assert (HB : forall a b, In a (l0 ++ l1) -> In b (l0 ++ l1) ->
     (if Nat.eqb (tens a) (tens b) then a - b <=? w else true) = true /\
     (if Nat.ltb (tens a) (tens b) then a + w <? b else true) = true).
  { intros a b Ha Hb. unfold grouped_check in H. rewrite forallb_forall in H. specialize (H a Ha).
    rewrite forallb_forall in H. specialize (H b Hb). now apply andb_prop in H. }
  constructor.
  - intros i j a b Hi Hj Ha Hb E. destruct (HB a b (HA i a Hi Ha) (HA j b Hj Hb)) as [H1 _].
    rewrite E, Nat.eqb_refl in H1. now apply Z.leb_le.
  - intros i j a b Hi Hj Ha Hb E. destruct (HB a b (HA i a Hi Ha) (HA j b Hj Hb)) as [_ H1].
    apply Nat.ltb_lt in E. rewrite E in H1. now apply Z.ltb_lt.
  - intros [|i] Hi; auto.
Qed.

(** With a maximum interval of 3 and messages lost on both inputs: the complete groups. *)
Definition lossy : list (nat * Z) := [A 1; B 3; A 20; B 10; B 33; A 31; A 42; A 51; B 50; B 60; A 60].
Example C110_lossy_met :
  grouped (fun z => z) tens 2 (fun i => stream i lossy) 3 /\
  respects (fun z => z) 2 (fun _ => 0) (fun i => stream i lossy) /\
  sim (cfgw 3) lossy = Some [[1; 3]; [31; 33]; [51; 50]; [60; 60]] /\
  complete tens 2 (fun i => stream i lossy) 3 /\ passed tens 2 (fun i => stream i lossy) 3 /\
  ~ complete tens 2 (fun i => stream i lossy) 2.
Proof.
  split.
  { assert (H := grouped_check_sound 3 [1; 20; 31; 42; 51; 60] [3; 10; 33; 50; 60] eq_refl
      ltac:(cbn; repeat (constructor; [cbn; intuition discriminate|]); constructor)
      ltac:(cbn; repeat (constructor; [cbn; intuition discriminate|]); constructor)).
    destruct H as [H1 H2 H3]. constructor.
    - intros [|[|i]] [|[|j]] a b Hi Hj; try lia; [apply (H1 O O)|apply (H1 O 1%nat)|apply (H1 1%nat O)|apply (H1 1%nat 1%nat)]; lia.
    - intros [|[|i]] [|[|j]] a b Hi Hj; try lia; [apply (H2 O O)|apply (H2 O 1%nat)|apply (H2 1%nat O)|apply (H2 1%nat 1%nat)]; lia.
    - intros [|[|i]] Hi; try lia; [apply (H3 O)|apply (H3 1%nat)]; lia. }
  split. { intros [|[|i]] Hi; [| |lia]; (split; [cbn; lia|]); apply spaced_check; reflexivity. }
  split; [vm_compute; reflexivity|].
  split. { intros [|[|i]] Hi; [exists 31|exists 33|lia]; split; try reflexivity; vm_compute; tauto. }
  split. { intros [|[|i]] Hi; [exists 60|exists 60|lia]; split; try (vm_compute; lia); vm_compute; tauto. }
  intros H. destruct (H 1%nat ltac:(lia)) as (e & He & Hg). vm_compute in He. intuition (subst; discriminate).
Qed.

(** The same without a maximum interval: messages of different groups are combined.
    The hypothesis that no input misses a group cannot be dropped. *)
Theorem C110_approx_none_missing_needed :
  exists h s outs,
    grouped (fun z => z) tens 2 (fun i => stream i h) 1 /\
    respects (fun z => z) 2 (fun _ => 0) (fun i => stream i h) /\
    run (fun z => z) (cfgw (2 ^ 60)) (init (cfgw (2 ^ 60))) h = Ok (s, outs) /\
    outs = [[0; 0]; [20; 10]] /\ ~ the_groups tens 2 (fun i => stream i h) outs.
Proof.
  exists [A 0; B 0; B 10; A 20; B 30; A 40]. do 2 eexists. split.
  { assert (H := grouped_check_sound 1 [0; 20; 40] [0; 10; 30] eq_refl
      ltac:(cbn; repeat (constructor; [cbn; intuition discriminate|]); constructor)
      ltac:(cbn; repeat (constructor; [cbn; intuition discriminate|]); constructor)).
    destruct H as [H1 H2 H3]. constructor.
    - intros [|[|i]] [|[|j]] a b Hi Hj; try lia; [apply (H1 O O)|apply (H1 O 1%nat)|apply (H1 1%nat O)|apply (H1 1%nat 1%nat)]; lia.
    - intros [|[|i]] [|[|j]] a b Hi Hj; try lia; [apply (H2 O O)|apply (H2 O 1%nat)|apply (H2 1%nat O)|apply (H2 1%nat 1%nat)]; lia.
    - intros [|[|i]] Hi; try lia; [apply (H3 O)|apply (H3 1%nat)]; lia. }
  split. { intros [|[|i]] Hi; [| |lia]; (split; [cbn; lia|]); apply spaced_check; reflexivity. }
  split; [vm_compute; reflexivity|]. split; [reflexivity|].
  intros (gs & H & _). inversion H as [|g1 X1 gs1 os1 _ H2]; subst. inversion H2 as [|g2 X2 gs2 os2 [_ H3] _]; subst.
  destruct (H3 0%nat ltac:(lia)) as (a & Ea & _ & Ga). destruct (H3 1%nat ltac:(lia)) as (b & Eb & _ & Gb).
  injection Ea as <-. injection Eb as <-. rewrite <- Gb in Ga. discriminate.
Qed.

(** With all messages and no maximum interval. *)
Example C110_unlimited_met :
  none_missing tens 2 (fun i => stream i [A 1; B 3; B 12; A 11; A 20; B 22; A 30]) /\
  sim (cfgw (2 ^ 60)) [A 1; B 3; B 12; A 11; A 20; B 22; A 30] = Some [[1; 3]; [11; 12]; [20; 22]].
Proof.
  split; [|vm_compute; reflexivity]. exists [0; 1; 2; 3]%nat. intros [|[|i]] Hi; [exists []|exists [3%nat]|lia]; reflexivity.
Qed.

Print Assumptions C110_approx_outputs_groups.
Print Assumptions C110_approx_outputs_groups_unlimited.
Print Assumptions C110_approx_none_missing_needed.
