(** Properties C16-C21: ExactTime.  [run stamp n q init h] is the policy with [n]
    inputs and queue size [q] after the additions [h] (pairs of input index and
    message): final state and outputs. *)
From Coq Require Import List Arith ZArith Lia Bool Sorted Permutation.
From Verif Require Import Base Trace Exact_Model Exact_Spec Exact_Proofs.
Import ListNotations.
Local Open Scope Z_scope.

Section Props.
Context {E : Type} (stamp : E -> Z).

(** C16: every output set has one message per input, received on that input, all
    with the same stamp. *)
Theorem C16_exact_sets_match n q h ss :
  well_indexed n h -> In ss (signals (snd (run stamp n q init h))) ->
  exists t, matching_set stamp n h t ss.
Proof. intros HW. now apply run_signals. Qed.

(** C16: and the addition that outputs it contributes its own message. *)
Theorem C16_exact_output_contains_trigger n q h i e ss :
  well_indexed n (h ++ [(i, e)]) ->
  In ss (signals (snd (add stamp n q (fst (run stamp n q init h)) (i, e)))) ->
  matching_set stamp n (h ++ [(i, e)]) (stamp e) ss /\ nth_error ss i = Some e.
Proof.
  intros HW Hss. apply well_indexed_app in HW as [HW Hi].
  destruct (add_signals stamp n q h _ i e (Hi i e (or_introl eq_refl)) (run_inv stamp n q h HW) ss Hss); tauto.
Qed.

(** C17: unbounded queue, strictly increasing inputs: the addition that completes a
    stamp - and only it - outputs exactly that set. *)
Theorem C17_exact_complete_step n h i e ss :
  well_indexed n (h ++ [(i, e)]) -> in_order stamp n (h ++ [(i, e)]) ->
  (matching_set stamp n (h ++ [(i, e)]) (stamp e) ss <->
   signals (snd (add stamp n 0 (fst (run stamp n 0 init h)) (i, e))) = [ss]).
Proof. apply add_complete. Qed.

(** C17: over a whole history: a set is output iff it matches. *)
Theorem C17_exact_complete n h ss :
  (0 < n)%nat -> well_indexed n h -> in_order stamp n h ->
  (In ss (signals (snd (run stamp n 0 init h))) <-> exists t, matching_set stamp n h t ss).
Proof. apply signals_iff. Qed.

(** C17: exactly once. *)
Theorem C17_exact_once n q h :
  well_indexed n h -> in_order stamp n h -> NoDup (signals (snd (run stamp n q init h))).
Proof.
  intros HW HO. pose proof (signals_increasing stamp n q h HW HO) as H.
  induction H as [|x l HS IH HF]; constructor; auto.
  rewrite Forall_forall in HF. intros Hx. apply HF in Hx. lia.
Qed.

(** C18: every message is in exactly one of: an output set, a dropped set, the pending
    sets, or was replaced by a later message with the same stamp on the same input
    (equality of multisets of (input, message) pairs). *)
Theorem C18_exact_accounting n q h :
  well_indexed n h ->
  exists replaced,
    Permutation h
      (flat_map tagged_set (signals (snd (run stamp n q init h))) ++
       flat_map tagged (dropped (snd (run stamp n q init h))) ++
       flat_map (fun kt => tagged (snd kt)) (tuples (fst (run stamp n q init h))) ++ replaced) /\
    (forall x, In x replaced -> replaced_in stamp h x).
Proof. apply accounting. Qed.

(** C18: with strictly increasing inputs nothing is replaced. *)
Theorem C18_exact_accounting_in_order n q h :
  well_indexed n h -> in_order stamp n h ->
  Permutation h
    (flat_map tagged_set (signals (snd (run stamp n q init h))) ++
     flat_map tagged (dropped (snd (run stamp n q init h))) ++
     flat_map (fun kt => tagged (snd kt)) (tuples (fst (run stamp n q init h)))).
Proof.
  intros HW HO. destruct (accounting stamp n q h HW) as (R & HP & HR).
  destruct R as [|x R]; [now rewrite app_nil_r in HP|]. exfalso.
  destruct (HR x (or_introl eq_refl)) as (h1 & h2 & h3 & e & Hh & Heq).
  destruct x as [i x]. cbn in *.
  assert (Hi : (i < n)%nat). { apply (HW i x). rewrite Hh. apply in_or_app; cbn; auto. }
  specialize (HO i Hi). rewrite Hh, stream_app, stream_cons, Nat.eqb_refl in HO.
  apply StronglySorted_app in HO as (_ & HO & _). inversion HO; subst.
  rewrite Forall_forall in H2. assert (stamp x < stamp e); [|lia].
  apply H2. rewrite stream_app. apply in_or_app; right. rewrite stream_cons, Nat.eqb_refl. cbn; auto.
Qed.

(** C19: at most q incomplete sets pending, filed under their common stamp. *)
Theorem C19_exact_bounded n q h :
  well_indexed n h -> (0 < q)%nat ->
  (length (tuples (fst (run stamp n q init h))) <= q)%nat /\
  (forall k t, In (k, t) (tuples (fst (run stamp n q init h))) ->
     In None t /\ forall j e, nth_error t j = Some (Some e) -> stamp e = k /\ In (j, e) h).
Proof.
  intros HW Hq. destruct (run_inv stamp n q h HW) as (_ & HT & HB). split; auto.
  intros k t Hkt. destruct (HT _ Hkt) as (_ & Hf & Hs). cbn in *. split; auto. now apply full_none.
Qed.

(** C19: an output drops exactly the older pending sets (reported in stamp order) and
    keeps exactly the newer ones. *)
Theorem C19_exact_output_drops_exactly_older n q h i e ss :
  well_indexed n (h ++ [(i, e)]) ->
  let before := fst (run stamp n q init h) in
  let '(after, os) := add stamp n q before (i, e) in
  In ss (signals os) ->
  dropped os = map snd (filter (fun kt => fst kt <? stamp e) (tuples before)) /\
  tuples after = filter (fun kt => stamp e <? fst kt) (tuples before).
Proof.
  intros HW before. destruct (add stamp n q before (i, e)) as [after os] eqn:Hadd. intros Hss.
  apply well_indexed_app in HW as [HW Hi0]. assert (Hi : (i < n)%nat) by (apply (Hi0 i e); cbn; auto).
  pose proof (run_inv stamp n q h HW) as HI. fold before in HI.
  pose proof (add_desc stamp n q h before i e Hi HI) as HD. rewrite Hadd in HD; cbn [fst snd] in HD.
  inversion HD as [a b t0 s' os' Ha Hb Hm Hcase Hs' Hos]. clear HD. subst s' os'.
  destruct Hcase as [(ss' & Hf & -> & ->)|[(Hf & Hq & -> & ->)|(Hf & Hq & Hl & -> & ->)]].
  2:{ destruct Hss. } 2:{ rewrite signals_drops in Hss. destruct Hss. }
  rewrite dropped_signal, dropped_drops. cbn [tuples].
  assert (F1 : forall l, filter (fun kt => fst kt <? stamp e) (a ++ l ++ b) =
               a ++ filter (fun kt => fst kt <? stamp e) l :> list (Z * list (option E))).
  { intros l. rewrite !filter_app, filter_id.
    - f_equal. rewrite <- (app_nil_r (filter _ l)) at 2. f_equal.
      clear -Hb. induction b as [|x b IH]; cbn; auto. pose proof (Hb x (or_introl eq_refl)).
      destruct (Z.ltb_spec (fst x) (stamp e)); [lia|]. apply IH. intros; apply Hb; cbn; auto.
    - intros x Hx. apply Ha in Hx. now apply Z.ltb_lt. }
  assert (F2 : forall l, filter (fun kt => stamp e <? fst kt) (a ++ l ++ b) =
               filter (fun kt => stamp e <? fst kt) l ++ b :> list (Z * list (option E))).
  { intros l. rewrite !filter_app, (filter_id _ b).
    - rewrite app_assoc. f_equal. rewrite <- (app_nil_l (filter _ l)) at 2. f_equal.
      clear -Ha. induction a as [|x a IH]; cbn; auto. pose proof (Ha x (or_introl eq_refl)).
      destruct (Z.ltb_spec (stamp e) (fst x)); [lia|]. apply IH. intros; apply Ha; cbn; auto.
    - intros x Hx. apply Hb in Hx. now apply Z.ltb_lt. }
  destruct Hm as [[Hm _]|Hm]; rewrite Hm.
  - specialize (F1 []). specialize (F2 []). cbn in F1, F2. rewrite F1, F2, app_nil_r. auto.
  - specialize (F1 [(stamp e, t0)]). specialize (F2 [(stamp e, t0)]). cbn [app filter fst] in F1, F2.
    rewrite F1, F2, Z.ltb_irrefl. cbn. rewrite app_nil_r. auto.
Qed.

(** C19: without an output, at most one set is dropped, only when the bound is
    exceeded, and it is older than everything kept. *)
Theorem C19_exact_overflow_drops_one_oldest n q h i e :
  well_indexed n (h ++ [(i, e)]) ->
  let '(after, os) := add stamp n q (fst (run stamp n q init h)) (i, e) in
  signals os = [] ->
  dropped os = [] \/
  exists t, dropped os = [t] /\ (0 < q)%nat /\ length (tuples after) = q /\
    forall x k t', In (Some x) t -> In (k, t') (tuples after) -> stamp x < k.
Proof.
  intros HW. destruct (add stamp n q _ (i, e)) as [after os] eqn:Hadd. intros Hss.
  apply well_indexed_app in HW as [HW Hi0]. assert (Hi : (i < n)%nat) by (apply (Hi0 i e); cbn; auto).
  pose proof (run_inv stamp n q h HW) as HI.
  pose proof (add_desc stamp n q h _ i e Hi HI) as HD. rewrite Hadd in HD; cbn [fst snd] in HD.
  inversion HD as [a b t0 s' os' Ha Hb Hm Hcase Hs' Hos]. clear HD. subst s' os'.
  destruct HI as (HS & HT & HB).
  destruct Hcase as [(ss' & Hf & -> & ->)|[(Hf & Hq & -> & ->)|(Hf & Hq & Hl & -> & ->)]].
  { rewrite signals_signal in Hss. discriminate. } { left; reflexivity. }
  right. rewrite dropped_drops.
  assert (Ht0 : t0 = empty_tuple n \/ tuple_ok stamp n h (stamp e, t0)).
  { destruct Hm as [[_ ->]|Hm]; auto. right. apply HT. rewrite Hm. apply in_or_app; cbn; auto. }
  destruct (stored_ok stamp n h i e t0 Hi Ht0) as [Hlen Hslots].
  assert (HSm : keysorted (a ++ (stamp e, upd i (Some e) t0) :: b)).
  { apply keysorted_mid; auto. destruct Hm as [[Hm _]|Hm]; rewrite Hm in HS; auto.
    now apply keysorted_unmid in HS. }
  assert (Hkeys : forall k t x, In (k, t) (a ++ (stamp e, upd i (Some e) t0) :: b) -> In (Some x) t -> stamp x = k).
  { intros k t x Hkt Hx. apply In_nth_error in Hx as [j Hj].
    assert (Hab : In (k, t) (a ++ b) -> stamp x = k).
    { intros Hin. apply (HT (k, t)) in Hj; [tauto|].
      destruct Hm as [[Hm _]|Hm]; rewrite Hm; auto.
      apply in_app_or in Hin as [Hin|Hin]; apply in_or_app; cbn; auto. }
    apply in_app_or in Hkt as [Hkt|[[= <- <-]|Hkt]].
    - apply Hab, in_or_app; auto.
    - apply Hslots in Hj; tauto.
    - apply Hab, in_or_app; auto. }
  destruct (a ++ (stamp e, upd i (Some e) t0) :: b) as [|[k0 t1] m]; [cbn in Hl; lia|].
  cbn [firstn map snd tl tuples] in *. exists t1. repeat split; auto.
  intros x k t' Hx Hk. inversion HSm; subst. rewrite Forall_forall in H2.
  specialize (H2 _ Hk). cbn in H2. rewrite (Hkeys k0 t1 x); cbn; auto.
Qed.

(** C20: strictly increasing inputs give strictly increasing output stamps, for every
    queue size. *)
Theorem C20_exact_output_in_time_order n q h :
  well_indexed n h -> in_order stamp n h ->
  strictly_increasing (set_stamp stamp) (signals (snd (run stamp n q init h))).
Proof. apply signals_increasing. Qed.

(** C21: the output only depends on the per-input streams. *)
Theorem C21_exact_order_independent n h h' :
  (0 < n)%nat -> well_indexed n h -> well_indexed n h' -> in_order stamp n h ->
  (forall i, (i < n)%nat -> stream i h = stream i h') ->
  signals (snd (run stamp n 0 init h)) = signals (snd (run stamp n 0 init h')).
Proof. apply order_independent. Qed.
End Props.

(** C20 does need ordered inputs: late messages form an older set after a newer one,
    and a repeated stamp is output twice. *)
Theorem C20_time_order_for_late_messages_refuted :
  exists (h : list (nat * Z)),
    well_indexed 2 h /\
    signals (snd (run (fun z => z) 2 0 init h)) = [[5; 5]; [3; 3]; [3; 3]].
Proof.
  exists [(0%nat, 5); (1%nat, 5); (0%nat, 3); (1%nat, 3); (1%nat, 3); (0%nat, 3)]. split; [|reflexivity].
  intros i e H. cbn in H. repeat (destruct H as [[= <- <-]|H]; [lia|]). destruct H.
Qed.

(** ** Non-vacuity: three inputs, interleaved, incomplete stamps, both queue kinds. *)
Definition ex_h : list (nat * Z) :=
  [(0%nat, 1); (1%nat, 1); (0%nat, 2); (2%nat, 1); (1%nat, 3); (2%nat, 2); (2%nat, 3); (0%nat, 3); (1%nat, 4)].
Definition ex_h' : list (nat * Z) :=
  [(1%nat, 1); (1%nat, 3); (1%nat, 4); (0%nat, 1); (0%nat, 2); (0%nat, 3); (2%nat, 1); (2%nat, 2); (2%nat, 3)].
Example C16_C21_nonvacuous :
  well_indexed 3 ex_h /\ in_order (fun z => z) 3 ex_h /\
  (forall i, (i < 3)%nat -> stream i ex_h = stream i ex_h') /\
  signals (snd (run (fun z => z) 3 0 init ex_h)) = [[1; 1; 1]; [3; 3; 3]] /\
  dropped (snd (run (fun z => z) 3 0 init ex_h)) = [[Some 2; None; Some 2]] /\
  snd (run (fun z => z) 3 1 init ex_h) =
    [Drop [Some 1; Some 1; None]; Drop [None; None; Some 1]; Drop [Some 2; None; None];
     Drop [None; None; Some 2]; Signal [3; 3; 3]] /\
  length (tuples (fst (run (fun z => z) 3 1 init ex_h))) = 1%nat.
Proof.
  split; [|split].
  - intros i e H. cbn in H. repeat (destruct H as [[= <- <-]|H]; [lia|]). destruct H.
  - intros i Hi. destruct i as [|[|[|i]]]; [| | |lia]; cbv; repeat constructor.
  - split; [|vm_compute; repeat split].
    intros i Hi. destruct i as [|[|[|i]]]; [| | |lia]; reflexivity.
Qed.

Print Assumptions C16_exact_sets_match.
Print Assumptions C16_exact_output_contains_trigger.
Print Assumptions C17_exact_complete_step.
Print Assumptions C17_exact_complete.
Print Assumptions C17_exact_once.
Print Assumptions C18_exact_accounting.
Print Assumptions C18_exact_accounting_in_order.
Print Assumptions C19_exact_bounded.
Print Assumptions C19_exact_output_drops_exactly_older.
Print Assumptions C19_exact_overflow_drops_one_oldest.
Print Assumptions C20_exact_output_in_time_order.
Print Assumptions C20_time_order_for_late_messages_refuted.
Print Assumptions C21_exact_order_independent.
