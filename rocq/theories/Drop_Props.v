(** Property C106: drop callbacks of ExactTime are told what is dropped, with null for what is
    missing; callbacks that cannot take null fail. *)
From Coq Require Import List Arith ZArith Lia Bool.
From Verif Require Import Base Event_Model Event_Spec Drop_Model Drop_Spec Drop_Proofs.
From Verif Require Exact_Model Exact_Spec Exact_Proofs Exact_Props.
Import ListNotations.

Section Props.
Context {V T : Type} (asserts : bool).
Notation tuple := (list (option (event T))).

(** The drop callbacks all return exactly if each has a form that can be null wherever a message
    is missing. *)
Theorem C106_drop_call_returns_iff (cbs : list (callback9 V)) (h : heap V) (t : tuple) vs :
  present h t vs -> (forall c, In c cbs -> length (fms c) = length t) ->
  ((exists r, call_drop_signal asserts h t cbs = Ok r) <-> forall c, In c cbs -> tolerates t c).
Proof.
  intros HP HL. split.
  - intros ([h' os] & Hr) c Hc i f Ht Hf. destruct (nullable f) eqn:En; auto.
    destruct (call_fails asserts cbs c h t i f Hc Ht Hf En) as (e & He). congruence.
  - intros HT. destruct (call_ok asserts cbs h t (present_valid _ _ _ HP) HT) as (h' & os & Hr). eauto.
Qed.

(** Otherwise a null pointer is dereferenced, or an assertion fails (std::bad_function_call is
    thrown without assertions). *)
Theorem C106_how_it_fails (cbs : list (callback9 V)) (h : heap V) (t : tuple) vs e :
  present h t vs -> call_drop_signal asserts h t cbs = Err e ->
  e = UB \/ e = if asserts then AssertFailed else Thrown.
Proof. intros HP. apply call_err. eapply present_valid; eauto. Qed.

(** Callbacks that return see the messages of the set, and null for those missing; the messages
    are not changed.  (Events as filters signal them demand copies; see C04 for others.) *)
Theorem C106_drop_callbacks_see_the_set (cbs : list (callback9 V)) (h : heap V) (t : tuple) vs :
  present h t vs -> (forall e, In (Some e) t -> need e = true) ->
  (forall c, In c cbs -> length (fms c) = length t /\ tolerates t c) ->
  exists h' os, call_drop_signal asserts h t cbs = Ok (h', os) /\ length os = length cbs /\
    (forall o, In o os -> o = vs) /\ unchanged h h'.
Proof. apply call_seen. Qed.

(** ** In ExactTime *)
Variable stamp : event T -> Z.

Lemma dropped_shape n q (h : list (nat * event T)) t :
  Exact_Spec.well_indexed n h -> In t (Exact_Spec.dropped (snd (Exact_Model.run stamp n q Exact_Model.init h))) ->
  length t = n /\ In None t.
Proof.
  induction h as [|[i e] h IH] using rev_ind; intros HW Ht; [destruct Ht|].
  apply Exact_Proofs.well_indexed_app in HW as [HW Hi0]. assert (Hi : i < n) by (eapply Hi0; cbn; auto).
  rewrite Exact_Proofs.run_snoc in Ht. cbn [snd] in Ht. unfold Exact_Spec.dropped in Ht. rewrite flat_map_app in Ht.
  apply in_app_or in Ht as [Ht|Ht]; [now apply IH|].
  pose proof (Exact_Proofs.run_inv stamp n q h HW) as HI.
  pose proof (Exact_Proofs.add_inv stamp n q h _ i e Hi HI) as HI'.
  pose proof (Exact_Proofs.add_desc stamp n q h _ i e Hi HI) as HD.
  remember (Exact_Model.add stamp n q (fst (Exact_Model.run stamp n q Exact_Model.init h)) (i, e)) as r eqn:Er. clear Er.
  inversion HD as [a b t0 s' os Ha Hb Hm Hcase Hs' Hos]. clear HD. destruct HI as (HS & HT & HB).
  assert (Hold : forall kt, In kt a -> length (snd kt) = n /\ In None (snd kt)).
  { intros kt Hk. assert (In kt (Exact_Model.tuples (fst (Exact_Model.run stamp n q Exact_Model.init h)))) as Hin.
    { destruct Hm as [[Hm _]|Hm]; rewrite Hm; apply in_or_app; auto. }
    destruct (HT kt Hin) as (H1 & H2 & _). split; auto. now apply Exact_Proofs.full_none. }
  assert (Hlt : length t0 = n).
  { destruct Hm as [[_ ->]|Hm]; [apply repeat_length|]. apply (HT (stamp e, t0)). rewrite Hm. apply in_or_app; cbn; auto. }
  destruct Hcase as [(ss & Hf & Hs & Ho)|[(Hf & _ & Hs & Ho)|(Hf & _ & _ & Hs & Ho)]]; rewrite Ho in Ht.
  - cbn in Ht. fold (Exact_Spec.dropped (Exact_Model.drops a)) in Ht. rewrite Exact_Proofs.dropped_drops in Ht.
    apply in_map_iff in Ht as (kt & <- & Hk). auto.
  - destruct Ht.
  - fold (@Exact_Spec.dropped (event T)) in Ht.
    change (In t (Exact_Spec.dropped (Exact_Model.drops (firstn 1 (a ++ (stamp e, upd i (Some e) t0) :: b))))) in Ht.
    rewrite Exact_Proofs.dropped_drops in Ht. apply in_map_iff in Ht as (kt & <- & Hk).
    destruct a as [|x a]; cbn in Hk; destruct Hk as [<-|[]].
    + cbn. rewrite upd_length. split; auto. now apply Exact_Proofs.full_none.
    + apply Hold. cbn. auto.
Qed.

Lemma tagged_in (t : tuple) : forall i j x, nth_error t j = Some (Some x) -> In (i + j, x) (Exact_Spec.tagged_from i t).
Proof.
  induction t as [|o t IH]; intros i [|j] x H; cbn in H; try discriminate.
  - injection H as ->. cbn. rewrite Nat.add_0_r. auto.
  - apply (IH (S i)) in H. replace (i + S j) with (S i + j) by lia. destruct o; cbn; auto.
Qed.
Lemma dropped_received n q (h : list (nat * event T)) t j x :
  Exact_Spec.well_indexed n h -> In t (Exact_Spec.dropped (snd (Exact_Model.run stamp n q Exact_Model.init h))) ->
  nth_error t j = Some (Some x) -> In (j, x) h.
Proof.
  intros HW Ht Hj. destruct (Exact_Props.C18_exact_accounting stamp n q h HW) as (R & HP & _).
  eapply Permutation.Permutation_in; [symmetry; exact HP|]. apply in_or_app; right. apply in_or_app; left.
  apply in_flat_map. exists t. split; auto. now apply (tagged_in t 0).
Qed.

(** A drop callback none of whose parameters can be null - const M &, M, shared_ptr<M>, ... - fails
    at every drop, whatever the history, and whatever other callbacks there are. *)
Theorem C106_other_forms_always_fail n q (h : list (nat * event T)) t (cbs : list (callback9 V)) c (m : heap V) :
  Exact_Spec.well_indexed n h -> In t (Exact_Spec.dropped (snd (Exact_Model.run stamp n q Exact_Model.init h))) ->
  In c cbs -> length (fms c) = n -> (forall f, In f (fms c) -> nullable f = false) ->
  exists e, call_drop_signal asserts m t cbs = Err e.
Proof.
  intros HW Ht Hc HL HN. destruct (dropped_shape n q h t HW Ht) as [Hl Hin].
  apply In_nth_error in Hin as (i & Hi). destruct (nth_error (fms c) i) as [f|] eqn:Ef.
  - eapply call_fails; eauto. apply HN. eapply nth_error_In; eauto.
  - apply nth_error_None in Ef. assert (i < length t) by (apply nth_error_Some; congruence). lia.
Qed.

(** With shared pointers to const messages, or const events, they never fail and are told what is
    dropped. *)
Theorem C106_const_pointers_work n q (h : list (nat * event T)) t (cbs : list (callback9 V)) (m : heap V) vs :
  Exact_Spec.well_indexed n h -> In t (Exact_Spec.dropped (snd (Exact_Model.run stamp n q Exact_Model.init h))) ->
  (forall i e, In (i, e) h -> need e = true) -> present m t vs ->
  (forall c, In c cbs -> length (fms c) = n /\ forall f, In f (fms c) -> nullable f = true) ->
  exists m' os, call_drop_signal asserts m t cbs = Ok (m', os) /\ length os = length cbs /\
    (forall o, In o os -> o = vs /\ In None o) /\ unchanged m m'.
Proof.
  intros HW Ht HN HP HC. destruct (dropped_shape n q h t HW Ht) as [Hl Hin].
  destruct (call_seen asserts cbs m t vs HP) as (m' & os & H1 & H2 & H3 & H4).
  - intros e He. destruct (In_nth_error _ _ He) as (i & Hi).
    assert (In (i, e) h) by (eapply dropped_received; eauto). eauto.
  - intros c Hc. destruct (HC c Hc) as [HL Hn]. split; [lia|]. intros i f _ Hf. apply Hn. eapply nth_error_In; eauto.
  - exists m', os. repeat split; auto; try (now apply H3). rewrite (H3 o H). clear -HP Hin.
    induction HP as [|o v t vs H _ IH]; [destruct Hin|]. destruct Hin as [->|Hin]; [destruct v; [destruct H|]; cbn; auto|]. cbn; auto.
Qed.
End Props.

(** Not every form works: a history and a callback with the documented form const M & that fails. *)
Definition ev (a : nat) : event nat := mkEvent true a None 0 true.
Definition ex_h : list (nat * event nat) := [(0, ev 0); (1, ev 1); (0, ev 2)].
Definition ex_stamp (e : event nat) : Z := Z.of_nat (msg e).
Theorem C106_any_form_refuted :
  ~ (forall n q (h : list (nat * event nat)) t (cbs : list (callback9 nat)) (m : heap nat) vs,
       Exact_Spec.well_indexed n h -> In t (Exact_Spec.dropped (snd (Exact_Model.run ex_stamp n q Exact_Model.init h))) ->
       present m t vs -> (forall c, In c cbs -> length (fms c) = n) ->
       exists r, call_drop_signal true m t cbs = Ok r).
Proof.
  intros H.
  destruct (H 2 1 [(0, ev 0); (0, ev 1)] [Some (ev 0); None] [mkCallback9 [ConstRef; ConstRef] (fun _ v => v)] [7; 8] [Some 7; None]) as (r & Hr).
  - intros i e [[= <- <-]|[[= <- <-]|[]]]; lia.
  - vm_compute. auto.
  - repeat constructor.
  - intros c [<-|[]]. reflexivity.
  - vm_compute in Hr. discriminate.
Qed.

(** Non-vacuity: a queue of two overflows; pointers to const messages, or an event where the message is
    there, are fine, references are not. *)
Example C106_nonvacuous :
  Exact_Spec.dropped (snd (Exact_Model.run ex_stamp 2 2 Exact_Model.init ex_h)) = [[Some (ev 0); None]] /\
  call_drop_signal true [10; 11; 12] [Some (ev 0); None]
    [mkCallback9 [ConstSharedRef; ConstShared] (fun _ v => v); mkCallback9 [MutShared; EventConst] (fun _ v => v + 1)] =
    Ok ([10; 11; 12; 11], [[Some 10; None]; [Some 10; None]]) /\
  call_drop_signal true [10; 11; 12] [Some (ev 0); None] [mkCallback9 [ConstRef; ConstRef] (fun _ v => v)] = Err UB /\
  call_drop_signal true [10; 11; 12] [Some (ev 0); None] [mkCallback9 [ConstShared; MutShared] (fun _ v => v)] = Err AssertFailed /\
  call_drop_signal false [10; 11; 12] [Some (ev 0); None] [mkCallback9 [ConstShared; EventMut] (fun _ v => v)] = Err Thrown.
Proof. repeat split; reflexivity. Qed.
Print Assumptions C106_drop_call_returns_iff.
Print Assumptions C106_how_it_fails.
Print Assumptions C106_drop_callbacks_see_the_set.
Print Assumptions C106_other_forms_always_fail.
Print Assumptions C106_const_pointers_work.
Print Assumptions C106_any_form_refuted.
