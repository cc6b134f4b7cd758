(** Lemmas for C121. *)
From Coq Require Import List Arith ZArith Lia Bool Sorted Permutation.
From Verif Require Import Base RclTime Trace PermTac Aligner_Model Aligner_Spec Aligner_Proofs
  AlignBack_Model AlignBack_Spec.
Import ListNotations.
Local Open Scope Z_scope.

Section Proofs.
Context {E : Type} (stamp : E -> Z).
Variable n : nat.
Variable timeout : Z.
Variable cb : list (nat * E) -> list status -> list (op E).
Hypothesis Hstamp : forall e, stamp e < int64_max.

Notation state := (state E).
Notation op := (op E).
Notation item := (item E).
Notation touch := (touch stamp).
Notation dispatch_first := (dispatch_first stamp timeout).
Notation dispatch_first_cb := (dispatch_first_cb stamp timeout cb).
Notation dispatch_loop_cb := (dispatch_loop_cb stamp timeout cb).
Notation step_cb := (step_cb stamp timeout cb).
Notation run_cb := (run_cb stamp timeout cb).
Notation micro := (micro stamp n timeout).
Notation reach := (reach stamp n timeout).
Local Notation init := (init (E := E) n).

Lemma outs_app (a b : list item) : outs (a ++ b) = outs a ++ outs b.
Proof. apply flat_map_app. Qed.
Lemma history_app (a b : list item) : history (a ++ b) = history a ++ history b.
Proof. apply flat_map_app. Qed.
Lemma main_app (a b : list item) : main_calls (a ++ b) = main_calls a ++ main_calls b.
Proof. apply flat_map_app. Qed.
Lemma outs_inside os : outs (map (Inside (E := E)) os) = [].
Proof. induction os; cbn; auto. Qed.
Lemma history_inside os : history (map (Inside (E := E)) os) = os.
Proof. induction os; cbn; f_equal; auto. Qed.
Lemma main_inside os : main_calls (map (Inside (E := E)) os) = [].
Proof. induction os; cbn; auto. Qed.
Lemma calls_inside_map os t : calls_inside (map (Inside (E := E)) os ++ t) = os ++ calls_inside t.
Proof. induction os; cbn; f_equal; auto. Qed.

Lemma state_ext (a b : state) :
  length (queues a) = length (queues b) -> (forall j, qat j a = qat j b) ->
  last_in a = last_in b -> last_out a = last_out b -> a = b.
Proof.
  destruct a as [qa ia oa], b as [qb ib ob]; cbn. intros HL HQ -> ->.
  replace qb with qa; auto. apply nth_ext with queue_init queue_init; [exact HL|]. intros j _. apply (HQ j).
Qed.

(** ** the calls of one callback *)
Definition sets (os : list op) : Prop := forall x, In x os -> exists i p, x = SetPeriod i p /\ (i < n)%nat.

Lemma set_period_ok (s : state) i p :
  length (queues s) = n -> (i < n)%nat ->
  exists s', set_period s i p = Ok s' /\ length (queues s') = n /\ last_in s' = last_in s /\ last_out s' = last_out s /\
    forall j, qat j s' = if Nat.eqb i j then set_period_q p (qat j s) else qat j s.
Proof.
  intros HL Hi. assert (Hn : nth_error (queues s) i = Some (qat i s)) by (apply nth_error_nth'; lia).
  unfold set_period. rewrite Hn. eexists. split; [reflexivity|]. cbn. split; [now rewrite upd_length|].
  split; auto. split; auto. intros j. unfold qat at 1. cbn [queues]. destruct (Nat.eqb_spec i j) as [->|Hj].
  - apply nth_upd_eq; lia.
  - rewrite nth_upd_neq by auto. reflexivity.
Qed.

Lemma set_period_q_id (q : queue E) : set_period_q (period q) q = q.
Proof. now destruct q. Qed.

Lemma calls_ok os : forall s : state,
  length (queues s) = n -> sets os ->
  exists s', calls s os = Ok s' /\ length (queues s') = n /\ last_in s' = last_in s /\ last_out s' = last_out s /\
    forall j, qat j s' = set_period_q (period_from (period (qat j s)) j os) (qat j s).
Proof.
  induction os as [|o os IH]; intros s HL HO.
  - exists s. cbn. repeat split; auto. intros j. now rewrite set_period_q_id.
  - destruct (HO o (or_introl eq_refl)) as (i & p & -> & Hi). cbn.
    destruct (set_period_ok s i p HL Hi) as (s1 & -> & HL1 & E1 & E2 & HQ1). cbn.
    destruct (IH s1 HL1 (fun x H => HO x (or_intror H))) as (s2 & -> & HL2 & E3 & E4 & HQ2).
    exists s2. split; auto. split; auto. split; [congruence|]. split; [congruence|].
    intros j. rewrite HQ2, !HQ1. destruct (Nat.eqb i j); reflexivity.
Qed.

Lemma calls_reach h o (s s' : state) os :
  (0 < n)%nat -> sets os -> reach h o s -> calls s os = Ok s' -> reach (h ++ os) o s'.
Proof.
  intros Hn HO. revert h s. induction os as [|x os IH]; intros h s HR Hc.
  - cbn in Hc. injection Hc as <-. now rewrite app_nil_r.
  - destruct (HO x (or_introl eq_refl)) as (i & p & -> & Hi). cbn in Hc.
    destruct (reach_sorted stamp n timeout h o s Hn HR) as [HL _].
    destruct (set_period_ok s i p HL Hi) as (s1 & Hs & _). rewrite Hs in Hc. cbn in Hc.
    change (SetPeriod i p :: os) with ([SetPeriod i p] ++ os). rewrite app_assoc.
    apply IH with s1; auto. { intros y Hy. apply HO. now right. }
    eapply R_period; eauto.
Qed.

Lemma calls_inv Start h o (s s' : state) os :
  sets os -> Inv stamp n Start h s o -> calls s os = Ok s' -> Inv stamp n Start (h ++ os) s' o.
Proof.
  intros HO. revert h s. induction os as [|x os IH]; intros h s HI Hc.
  - cbn in Hc. injection Hc as <-. now rewrite app_nil_r.
  - destruct (HO x (or_introl eq_refl)) as (i & p & -> & Hi). cbn in Hc.
    destruct (set_period_inv stamp n Start h s o i p Hi HI) as (s1 & Hs & HI1). rewrite Hs in Hc. cbn in Hc.
    change (SetPeriod i p :: os) with ([SetPeriod i p] ++ os). rewrite app_assoc.
    apply IH with s1; auto. intros y Hy. apply HO. now right.
Qed.

(** ** one dispatchFirstMessage: the plain one followed by the calls of the callback *)
Definition statuses (s : state) : list status := map (fun q => get_status (touch q)) (queues s).

Lemma dispatch_first_cb_spec (s : state) tr :
  (0 < n)%nat -> length (queues s) = n -> only_periods n cb ->
  exists s0 o b, dispatch_first s = Ok (s0, o, b) /\ micro s s0 o b /\
    ((o = [] /\ dispatch_first_cb s tr = Ok (s0, [], b)) \/
     exists i e s', o = [(i, e)] /\ b = true /\
       let os := cb (outs tr ++ [(i, e)]) (statuses s) in
       dispatch_first_cb s tr = Ok (s', Forward i e (statuses s) :: map Inside os, true) /\
       calls s0 os = Ok s').
Proof.
  intros Hn HL Hcb. destruct (dispatch_first_micro stamp n timeout s Hn HL) as (s0 & o & b & Hd & Hm).
  exists s0, o, b. split; auto. split; auto.
  unfold Aligner_Model.dispatch_first in Hd. unfold AlignBack_Model.dispatch_first_cb.
  set (qs := map fst (map (first_time_stamp stamp) (queues s))) in *.
  set (idx := first_sample_idx (map snd (map (first_time_stamp stamp) (queues s)))) in *.
  destruct (nth_error qs idx) as [q|] eqn:Hq; [|discriminate].
  destruct (evs q) as [|e t] eqn:He.
  - destruct (timeout <=? _); injection Hd as <- <- <-; left; auto.
  - injection Hd as <- <- <-. right.
    assert (Hst : map get_status qs = statuses s).
    { unfold qs, statuses. rewrite !map_map. reflexivity. }
    rewrite Hst. set (os := cb (outs tr ++ [(idx, e)]) (statuses s)).
    assert (HO : sets os) by (intros x Hx; eapply Hcb; exact Hx).
    assert (HLq : length qs = n) by (unfold qs; now rewrite !map_length).
    assert (Hidx : (idx < length qs)%nat) by (apply nth_error_Some; congruence).
    destruct (calls_ok os (mkState qs (last_in s) (stamp e)) HLq HO) as (s1 & H1 & HL1 & E1 & E2 & HQ1).
    destruct (calls_ok os (mkState (upd idx (pop_first q) qs) (last_in s) (stamp e))) as (s2 & H2 & HL2 & E3 & E4 & HQ2);
      [cbn; now rewrite upd_length|auto|].
    exists idx, e, s2. split; auto. split; auto. cbn zeta. fold os. split; [|exact H2].
    rewrite H1. cbn [bind]. rewrite (nth_error_nth' (queues s1) queue_init) by lia. fold (qat idx s1).
    do 2 f_equal. f_equal. apply state_ext; cbn [queues last_in last_out]; try congruence.
    + rewrite upd_length. congruence.
    + intros j. rewrite HQ2. unfold qat at 1. cbn [queues].
      assert (HqI : nth idx qs queue_init = q) by (apply nth_error_nth; auto).
      destruct (Nat.eq_dec idx j) as [<-|Hj].
      * rewrite nth_upd_eq by lia. rewrite HQ1. unfold qat. cbn [queues]. rewrite nth_upd_eq by auto.
        rewrite HqI. reflexivity.
      * rewrite nth_upd_neq by auto. fold (qat j s1). rewrite HQ1. unfold qat. cbn [queues].
        rewrite nth_upd_neq by auto. reflexivity.
    + cbn in E1, E3. congruence.
    + cbn in E2, E4. congruence.
Qed.

(** ** the invariant *)
Definition Pre (tr : list item) (h : list op) (_ : state) (o : list (nat * E)) : Prop :=
  exists a b, tr = a ++ b /\ h = history a /\ o = outs a.

Lemma Inv_mono (S1 S2 : list op -> state -> list (nat * E) -> Prop) h s o :
  (forall h s o, S1 h s o -> S2 h s o) -> Inv stamp n S1 h s o -> Inv stamp n S2 h s o.
Proof.
  intros HS (H1 & H2 & H3 & H4 & H5 & H6 & HQ). do 6 (split; [assumption|]). intros j.
  destruct (HQ j) as [Q1 Q2 Q3 Q4 (D & Q5 & Q6 & Q7 & Q8) Q9]. constructor; auto.
  exists D. repeat split; auto. intros d Hd. destruct (Q8 d Hd) as (h1 & h2 & s1 & o1 & A & B & C).
  exists h1, h2, s1, o1. auto.
Qed.

Lemma Pre_app tr t h s o : Pre tr h s o -> Pre (tr ++ t) h s o.
Proof. intros (a & b & -> & H). exists a, (b ++ t). rewrite app_assoc. auto. Qed.

(** what input [j] without messages predicts *)
Definition PQ (tr : list item) (li : Z) (j : nat) (q : queue E) : Prop :=
  evs q = [] ->
  (stream j (outs tr) = [] /\ active q = false) \/
  exists a x st b, tr = a ++ Forward j x st :: b /\ stream j (outs b) = [] /\
    next_ts q = stamp x + period_in_force j (history a) /\
    (active q = false -> timeout <= li - next_ts q).

Lemma PQ_app tr t li li' j q q' :
  stream j (outs t) = [] -> li <= li' ->
  (evs q' = [] -> evs q = [] /\ next_ts q' = next_ts q /\ active q' = active q) ->
  PQ tr li j q -> PQ (tr ++ t) li' j q'.
Proof.
  intros Ht Hli Hq HP He. destruct (Hq He) as (E1 & -> & ->).
  destruct (HP E1) as [[H1 H2]|(a & x & st & b & -> & H2 & H3 & H4)].
  - left. split; auto. now rewrite outs_app, stream_app, H1, Ht.
  - right. exists a, x, st, (b ++ t). split; [now rewrite <- app_assoc|].
    split; [now rewrite outs_app, stream_app, H2, Ht|]. split; auto. intros Ha. specialize (H4 Ha). lia.
Qed.

(** every message forwarded *)
Definition Fwd (tr : list item) : Prop :=
  forall a i e st b, tr = a ++ Forward i e st :: b ->
    exists s0 s1, Inv stamp n (Pre a) (history a) s0 (outs a) /\ reach (history a) (outs a) s0 /\
      dispatch_first s0 = Ok (s1, [(i, e)], true) /\ st = statuses s0 /\
      calls_inside b = cb (outs a ++ [(i, e)]) st.

Record K (tr : list item) (s : state) : Prop := mkK {
  k_inv : Inv stamp n (Pre tr) (history tr) s (outs tr);
  k_reach : reach (history tr) (outs tr) s;
  k_pred : forall j, (j < n)%nat -> PQ tr (last_in s) j (qat j s);
  k_fwd : Fwd tr;
  k_in : forall o, In (Inside o) tr -> exists i p, o = SetPeriod i p }.

Lemma split_items (a b o1 o2 : list item) x :
  a ++ b = o1 ++ x :: o2 ->
  (exists l, a = o1 ++ x :: l /\ o2 = l ++ b) \/ (exists l, o1 = a ++ l /\ b = l ++ x :: o2).
Proof.
  revert o1; induction a as [|y a IH]; intros o1 H; cbn in *.
  - right. exists o1. auto.
  - destruct o1 as [|z o1]; cbn in *; injection H as <- H; [left; eauto|].
    destruct (IH o1 H) as [(l & -> & ->)|(l & -> & ->)]; [left; eauto|right; eauto].
Qed.

Lemma calls_inside_app (a b : list item) : calls_inside b = [] -> calls_inside (a ++ b) = calls_inside a.
Proof. intros H. induction a as [|[o|i e st|o] a IH]; cbn; auto. now f_equal. Qed.

Lemma Fwd_app tr t :
  (forall i e st, ~ In (Forward i e st) t) -> calls_inside t = [] -> Fwd tr -> Fwd (tr ++ t).
Proof.
  intros Ht Hc HF a i e st b Hs. apply split_items in Hs as [(l & Hs & ->)|(l & -> & Hs)].
  - destruct (HF a i e st l Hs) as (s0 & s1 & H1 & H2 & H3 & H4 & H5).
    exists s0, s1. do 4 (split; auto). now rewrite calls_inside_app.
  - exfalso. eapply Ht. rewrite Hs. apply in_or_app. right. left. reflexivity.
Qed.

Lemma last_in_add (s s' : state) i e : add stamp s i e = Ok s' -> last_in s <= last_in s'.
Proof.
  unfold add. destruct (nth_error _ _); [|discriminate]. destruct (stamp e <? last_out s); intros [= <-]; cbn; [lia|].
  destruct (Z.ltb_spec (last_in s) (stamp e)); lia.
Qed.

Lemma evs_add (s s' : state) i e j :
  add stamp s i e = Ok s' -> evs (qat j s') = [] ->
  evs (qat j s) = [] /\ next_ts (qat j s') = next_ts (qat j s) /\ active (qat j s') = active (qat j s).
Proof.
  unfold add. destruct (nth_error (queues s) i) as [q|] eqn:Hq; [|discriminate].
  assert (Hi : (i < length (queues s))%nat) by (apply nth_error_Some; congruence).
  apply nth_error_nth with (d := queue_init) in Hq.
  destruct (stamp e <? last_out s); intros [= <-]; unfold qat; cbn [queues]; (destruct (Nat.eq_dec i j) as [<-|Hj];
    [rewrite nth_upd_eq by auto; cbn [msg_dropped set_evs evs next_ts active]|rewrite nth_upd_neq by auto; auto]).
  - rewrite Hq. auto.
  - intros He. pose proof (ins_perm stamp e (evs q)) as Hp. rewrite He in Hp.
    apply Permutation_sym in Hp. now apply Permutation_nil_cons in Hp.
Qed.

Lemma K_init : K [] init.
Proof.
  constructor.
  - apply init_inv.
  - constructor.
  - intros j Hj _. left. split; auto. now rewrite init_qat.
  - intros [|x a] i e st b H; discriminate.
  - intros o [].
Qed.

Lemma K_add tr s i e : (i < n)%nat -> K tr s -> exists s', add stamp s i e = Ok s' /\ K (tr ++ [Main (Add i e)]) s'.
Proof.
  intros Hi [K1 K2 K3 K4 K5].
  assert (HP : Pre (tr ++ [Main (Add i e)]) (history tr) s (outs tr)) by (exists tr, [Main (Add i e)]; auto).
  apply (Inv_mono _ (Pre (tr ++ [Main (Add i e)]))) in K1; [|intros; now apply Pre_app].
  destruct (add_inv stamp n Hstamp _ (history tr) s (outs tr) i e Hi HP K1) as (s' & Hs & HI').
  exists s'. split; auto. constructor.
  - rewrite history_app, outs_app. cbn. now rewrite app_nil_r.
  - rewrite history_app, outs_app. cbn. rewrite app_nil_r. eapply R_add; eauto.
  - intros j Hj. eapply PQ_app; [reflexivity|eapply last_in_add; eauto|intros He; eapply evs_add; eauto|auto].
  - apply Fwd_app; auto. intros ? ? ? [H|[]]; discriminate.
  - intros o Ho. apply in_app_or in Ho as [Ho|[Ho|[]]]; [auto|discriminate].
Qed.

Lemma K_set_period tr s i p : (i < n)%nat -> K tr s ->
  exists s', set_period s i p = Ok s' /\ K (tr ++ [Main (SetPeriod i p)]) s'.
Proof.
  intros Hi [K1 K2 K3 K4 K5].
  apply (Inv_mono _ (Pre (tr ++ [Main (SetPeriod i p)]))) in K1; [|intros; now apply Pre_app].
  destruct (set_period_ok s i p (proj1 K1) Hi) as (s1 & Hs1 & _ & E1 & _ & HQ).
  destruct (set_period_inv stamp n _ (history tr) s (outs tr) i p Hi K1) as (s' & Hs & HI').
  rewrite Hs in Hs1. injection Hs1 as <-.
  exists s'. split; auto. constructor.
  - rewrite history_app, outs_app. cbn. now rewrite app_nil_r.
  - rewrite history_app, outs_app. cbn. rewrite app_nil_r. eapply R_period; eauto.
  - intros j Hj. eapply PQ_app with (q := qat j s) (li := last_in s); [reflexivity|lia| |auto]. rewrite HQ. destruct (Nat.eqb i j); auto.
  - apply Fwd_app; auto. intros ? ? ? [H|[]]; discriminate.
  - intros o Ho. apply in_app_or in Ho as [Ho|[Ho|[]]]; [auto|discriminate].
Qed.

Lemma K_dispatch tr s : K tr s -> K (tr ++ [Main Dispatch]) s.
Proof.
  intros [K1 K2 K3 K4 K5].
  apply (Inv_mono _ (Pre (tr ++ [Main Dispatch]))) in K1; [|intros; now apply Pre_app].
  constructor.
  - rewrite history_app, outs_app. cbn. rewrite app_nil_r. now apply Inv_dispatch_snoc.
  - rewrite history_app, outs_app. cbn. rewrite app_nil_r. now apply R_dispatch.
  - intros j Hj. eapply PQ_app with (q := qat j s) (li := last_in s); [reflexivity|lia| |auto]. auto.
  - apply Fwd_app; auto. intros ? ? ? [H|[]]; discriminate.
  - intros o Ho. apply in_app_or in Ho as [Ho|[Ho|[]]]; [auto|discriminate].
Qed.

(** ** one iteration *)
Lemma K_first tr s :
  (0 < n)%nat -> 0 <= timeout -> only_periods n cb -> K tr s ->
  exists s' t b, dispatch_first_cb s tr = Ok (s', t, b) /\ K (tr ++ t) s' /\ main_calls t = [] /\
    (b = true -> (w s' < w s)%nat) /\ (b = false -> micro s s' [] false).
Proof.
  intros Hn Hto Hcb HK. destruct HK as [K1 K2 K3 K4 K5]. pose proof K1 as KI.
  destruct K1 as (HL & _ & _ & _ & Hin & _).
  destruct (dispatch_first_cb_spec s tr Hn HL Hcb) as (s0 & o & b & Hd & Hm & [(-> & Hc)|(i & e & s' & -> & -> & Hc & Hcalls)]).
  - exists s0, [], b. rewrite app_nil_r. split; auto. split; [|split; [auto|split]].
    + constructor.
      * rewrite <- (app_nil_r (outs tr)). eapply micro_inv; eauto.
      * rewrite <- (app_nil_r (outs tr)). eapply R_first; eauto.
      * intros j Hj. specialize (K3 j Hj).
        inversion Hm as [|idx qs' A1 A2 A3 A4 A5 A6|idx qs' A1 A2 A3 A4 A5 A6]; subst; unfold qat; cbn [queues last_in].
        -- rewrite A6. destruct (Nat.eqb_spec j idx) as [->|Hji].
           ++ intros He. destruct (K3 He) as [[H1 H2]|(a & x & st & c & H1 & H2 & H3 & H4)]; [left; auto|].
              right. exists a, x, st, c. cbn [set_active next_ts active]. split; auto. split; auto. split; auto.
              intros _. rewrite ts_empty in A4 by auto. destruct (active (qat idx s)); auto.
           ++ rewrite <- (app_nil_r tr). eapply PQ_app with (q := qat j s); [reflexivity|apply Z.le_refl| |exact K3].
              rewrite touch_evs. intros He. now rewrite touch_empty.
        -- rewrite A6, <- (app_nil_r tr). eapply PQ_app with (q := qat j s); [reflexivity|apply Z.le_refl| |exact K3].
           rewrite touch_evs. intros He. now rewrite touch_empty.
      * exact K4.
      * exact K5.
    + intros ->. eapply micro_decreases; eauto. lia.
    + intros ->. exact Hm.
  - set (os := cb (outs tr ++ [(i, e)]) (statuses s)) in *.
    assert (HO : sets os) by (intros x Hx; eapply Hcb; exact Hx).
    set (t := Forward i e (statuses s) :: map Inside os) in *.
    assert (Hot : outs t = [(i, e)]) by (change (outs t) with ((i, e) :: outs (map (Inside (E := E)) os)); now rewrite outs_inside).
    assert (Hht : history t = os) by (apply history_inside).
    assert (HI0 : Inv stamp n (Pre tr) (history tr) s0 (outs tr ++ [(i, e)])) by (eapply micro_inv; eauto).
    assert (HR0 : reach (history tr) (outs tr ++ [(i, e)]) s0) by (eapply R_first; eauto).
    destruct (calls_ok os s0 (proj1 HI0) HO) as (s'' & Hc' & HL' & E1 & E2 & HQ').
    rewrite Hcalls in Hc'. injection Hc' as <-.
    exists s', t, true. split; auto. split; [|split; [|split; [|discriminate]]].
    + constructor.
      * rewrite history_app, outs_app, Hot, Hht. eapply calls_inv; eauto.
        eapply Inv_mono; [|exact HI0]. intros; now apply Pre_app.
      * rewrite history_app, outs_app, Hot, Hht. eapply calls_reach; eauto.
      * intros j Hj. specialize (K3 j Hj). rewrite HQ', E1.
        inversion Hm as [idx e0 t0 qs' A1 A2 A3 A4 A5| |]; subst. unfold qat; cbn [queues last_in]. rewrite A5.
        destruct (Nat.eqb_spec j i) as [->|Hji].
        -- intros _. right. destruct (touch_next stamp _ _ _ A2) as [B1 B2].
           exists tr, e, (statuses s), (map Inside os). split; [reflexivity|]. split; [now rewrite outs_inside|].
           cbn [set_period_q pop_first next_ts active]. rewrite B1, B2. split; [|discriminate].
           f_equal. apply (proj1 (reach_predicts stamp n timeout _ _ _ Hn K2 i Hj)).
        -- eapply PQ_app with (q := qat j s); [|apply Z.le_refl| |exact K3].
           ++ rewrite Hot. cbn. destruct (Nat.eqb_spec i j); [congruence|reflexivity].
           ++ cbn [set_period_q evs next_ts active]. rewrite touch_evs. intros He. now rewrite touch_empty.
      * intros a i' e' st b Hs. apply split_items in Hs as [(l & Hs & ->)|(l & -> & Hs)].
        -- destruct (K4 a i' e' st l Hs) as (x0 & x1 & H1 & H2 & H3 & H4 & H5).
           exists x0, x1. do 4 (split; auto). now rewrite calls_inside_app.
        -- destruct l as [|y l].
           ++ cbn in Hs. unfold t in Hs. injection Hs as <- <- <- <-. rewrite app_nil_r.
              exists s, s0. split; [exact KI|]. do 3 (split; auto). fold os. rewrite <- (app_nil_r (map _ os)), calls_inside_map. apply app_nil_r.
           ++ cbn in Hs. unfold t in Hs. injection Hs as _ Hs. exfalso.
              assert (Hi : In (Forward i' e' st) (map (Inside (E := E)) os)) by (rewrite Hs; apply in_or_app; right; left; auto).
              apply in_map_iff in Hi as (z & Hz & _). discriminate.
      * intros o Ho. apply in_app_or in Ho as [Ho|Ho]; auto. destruct Ho as [Ho|Ho]; [discriminate|].
        apply in_map_iff in Ho as (z & [= <-] & Hz). destruct (HO z Hz) as (i' & p & -> & _). eauto.
    + apply main_inside.
    + intros _. assert (Hw : (w s0 < w s)%nat) by (eapply micro_decreases; eauto; lia).
      enough (w s' = w s0) by lia. unfold w. rewrite !(sum_nth wq), HL', (proj1 HI0). f_equal.
      apply map_ext. intros j. fold (qat j s') (qat j s0). rewrite HQ'. reflexivity.
Qed.

Lemma K_loop fuel : forall s tr,
  (0 < n)%nat -> 0 <= timeout -> only_periods n cb -> (w s < fuel)%nat -> K tr s ->
  exists s' t, dispatch_loop_cb fuel s tr = Ok (s', t) /\ K (tr ++ t) s' /\ main_calls t = [] /\
    exists s0, micro s0 s' [] false.
Proof.
  induction fuel as [|fuel IH]; intros s tr Hn Hto Hcb Hf HK; [lia|]. cbn.
  destruct (K_first tr s Hn Hto Hcb HK) as (s1 & t1 & b & -> & HK1 & HM1 & Hb1 & Hb2). cbn. destruct b.
  - destruct (IH s1 (tr ++ t1) Hn Hto Hcb ltac:(specialize (Hb1 eq_refl); lia) HK1) as (s2 & t2 & -> & HK2 & HM2 & Hst).
    cbn. exists s2, (t1 ++ t2). rewrite app_assoc, main_app, HM1, HM2. auto.
  - exists s1, t1. do 3 (split; auto). exists s. auto.
Qed.

Lemma inputs_none (s : state) : inputs_available s = false -> forall j, evs (qat j s) = [].
Proof.
  unfold inputs_available. intros H j. unfold qat.
  destruct (nth_in_or_default j (queues s) queue_init) as [Hi| ->]; [|reflexivity].
  destruct (evs (nth j (queues s) queue_init)) eqn:He; auto.
  assert (Ht : existsb (fun q : queue E => match evs q with [] => false | _ => true end) (queues s) = true); [|congruence].
  apply existsb_exists. eexists. split; [exact Hi|]. now rewrite He.
Qed.

Definition Stuck (s : state) : Prop :=
  (forall j, evs (qat j s) = []) \/ exists s0, micro s0 s [] false.

Lemma K_step tr s o :
  (0 < n)%nat -> 0 <= timeout -> only_periods n cb -> well_indexed n [o] -> K tr s ->
  exists s' t, step_cb s tr o = Ok (s', t) /\ K (tr ++ t) s' /\ main_calls t = [o] /\
    (o = Dispatch -> Stuck s').
Proof.
  intros Hn Hto Hcb [HW1 HW2] HK. destruct o as [i e|i p|]; cbn.
  - destruct (K_add tr s i e) as (s' & -> & HK'); [eapply HW1; left; eauto|auto|]. cbn.
    exists s', [Main (Add i e)]. do 3 (split; auto). discriminate.
  - destruct (K_set_period tr s i p) as (s' & -> & HK'); [eapply HW2; left; eauto|auto|]. cbn.
    exists s', [Main (SetPeriod i p)]. do 3 (split; auto). discriminate.
  - apply K_dispatch in HK. unfold dispatch_cb. destruct (inputs_available s) eqn:Ha.
    + destruct (K_loop (fuel_for s) s _ Hn Hto Hcb (fuel_enough s) HK) as (s' & t & -> & HK' & HM & Hst). cbn.
      exists s', (Main Dispatch :: t). split; auto. split; [now rewrite <- app_assoc in HK'|].
      split; [change (Dispatch :: main_calls t = [Dispatch]); now rewrite HM|]. intros _. right. exact Hst.
    + cbn. exists s, [Main Dispatch]. split; auto. split; auto. split; auto. intros _. left. now apply inputs_none.
Qed.

Lemma K_run h : forall tr s,
  (0 < n)%nat -> 0 <= timeout -> only_periods n cb -> well_indexed n h -> K tr s ->
  exists s' t, run_cb s tr h = Ok (s', t) /\ K (tr ++ t) s' /\ main_calls t = h.
Proof.
  induction h as [|o h IH]; intros tr s Hn Hto Hcb [HW1 HW2] HK.
  - exists s, []. rewrite app_nil_r. auto.
  - cbn. destruct (K_step tr s o Hn Hto Hcb) as (s1 & t1 & -> & HK1 & HM1 & _); auto.
    { split; intros i x [->|[]]; [eapply HW1|eapply HW2]; left; eauto. }
    cbn. destruct (IH (tr ++ t1) s1 Hn Hto Hcb) as (s2 & t2 & -> & HK2 & HM2); auto.
    { split; intros i x Hx; [eapply HW1|eapply HW2]; right; eauto. }
    cbn. exists s2, (t1 ++ t2). rewrite app_assoc, main_app, HM1, HM2. auto.
Qed.

Lemma run_cb_snoc h x : forall (s : state) tr,
  run_cb s tr (h ++ [x]) =
  bind (run_cb s tr h) (fun '(s1, t1) => bind (step_cb s1 (tr ++ t1) x) (fun '(s2, t2) => Ok (s2, t1 ++ t2))).
Proof.
  induction h as [|y h IH]; intros s tr; cbn [app AlignBack_Model.run_cb].
  - cbn [bind]. rewrite app_nil_r. destruct (step_cb s tr x) as [[s1 t1]|]; cbn; auto. now rewrite app_nil_r.
  - destruct (step_cb s tr y) as [[s1 t1]|]; cbn; auto. rewrite IH.
    destruct (run_cb s1 (tr ++ t1) h) as [[s2 t2]|]; cbn; auto. rewrite app_assoc.
    destruct (step_cb s2 _ x) as [[s3 t3]|]; cbn; auto. now rewrite app_assoc.
Qed.

(** a message dropped: from the calls to the trace *)
Lemma dropped_trace (tr : list item) j d :
  (forall o, In (Inside o) tr -> exists i p, o = SetPeriod i p) ->
  DroppedLate stamp (Pre tr) (history tr) j d ->
  exists a b, tr = a ++ Main (Add j d) :: b /\ (stamp d < 0 \/ exists x, In x (outs a) /\ stamp d < stamp (snd x)).
Proof.
  intros HIn (h1 & h2 & s1 & o1 & Hh & (a & b & -> & -> & ->) & Hd).
  rewrite history_app in Hh. apply app_inv_head in Hh.
  revert a HIn Hd Hh. induction b as [|x b IH]; intros a HIn Hd Hh; [discriminate|].
  destruct x as [o|i e st|o]; cbn in Hh.
  - injection Hh as -> _. exists a, b. auto.
  - destruct (IH (a ++ [Forward i e st])) as (a' & b' & H1 & H2).
    + now rewrite <- app_assoc.
    + destruct Hd as [Hd|(x & Hx & Hd)]; auto. right. exists x. split; auto. rewrite outs_app. apply in_or_app; auto.
    + exact Hh.
    + exists a', b'. rewrite <- app_assoc in H1. auto.
  - injection Hh as -> _. destruct (HIn (Add j d)) as (i & p & Hp); [|discriminate].
    apply in_or_app. right. now left.
Qed.

(** ** callbacks that make no calls, or lock at once *)
Definition like (dl : bool) (r : res (state * list item)) (s : state) (o : list (nat * E)) : Prop :=
  match dl, o with
  | true, _ :: _ => r = Err Deadlock
  | _, _ => exists t, r = Ok (s, t) /\ outs t = o
  end.
Definition kind (dl : bool) : Prop := if dl then locks_first cb else forall o st, cb o st = [].

Lemma first_like dl (s s0 : state) tr o b :
  kind dl -> dispatch_first s = Ok (s0, o, b) ->
  match dl, o with
  | true, _ :: _ => dispatch_first_cb s tr = Err Deadlock
  | _, _ => exists t, dispatch_first_cb s tr = Ok (s0, t, b) /\ outs t = o
  end.
Proof.
  intros HK. unfold Aligner_Model.dispatch_first, AlignBack_Model.dispatch_first_cb.
  set (qs := map fst (map (first_time_stamp stamp) (queues s))).
  set (idx := first_sample_idx (map snd (map (first_time_stamp stamp) (queues s)))).
  destruct (nth_error qs idx) as [q|] eqn:Hq; [|discriminate].
  destruct (evs q) as [|e t] eqn:He.
  - destruct (timeout <=? _); intros [= <- <- <-]; destruct dl; eauto.
  - intros [= <- <- <-]. destruct dl; cbn in HK.
    + destruct (HK (outs tr ++ [(idx, e)]) (map get_status qs)) as (x & rest & -> & [->|(i & e' & ->)]); reflexivity.
    + rewrite HK. cbn. rewrite Hq. eauto.
Qed.

Lemma loop_like dl fuel : forall (s s' : state) tr o,
  kind dl -> dispatch_loop stamp timeout fuel s = Ok (s', o) -> like dl (dispatch_loop_cb fuel s tr) s' o.
Proof.
  induction fuel as [|fuel IH]; intros s s' tr o HK; cbn; [discriminate|].
  destruct (dispatch_first s) as [[[s1 o1] b]|] eqn:Hd; [|discriminate]. cbn.
  pose proof (first_like dl s s1 tr o1 b HK Hd) as HF. destruct b.
  - destruct (dispatch_loop stamp timeout fuel s1) as [[s2 o2]|] eqn:Hl; [|discriminate]. cbn. intros [= <- <-].
    assert (HL : forall tr', like dl (dispatch_loop_cb fuel s1 tr') s2 o2) by (intros tr'; now apply IH).
    destruct dl, o1 as [|x o1]; cbn [like app] in *.
    + destruct HF as (t & -> & Ht). cbn. specialize (HL (tr ++ t)). destruct o2 as [|y o2].
      * destruct HL as (t2 & -> & Ht2). cbn. eexists. split; [reflexivity|]. now rewrite outs_app, Ht, Ht2.
      * now rewrite HL.
    + now rewrite HF.
    + destruct HF as (t & -> & Ht). cbn. destruct (HL (tr ++ t)) as (t2 & -> & Ht2). cbn.
      eexists. split; [reflexivity|]. now rewrite outs_app, Ht, Ht2.
    + destruct HF as (t & -> & Ht). cbn. destruct (HL (tr ++ t)) as (t2 & -> & Ht2). cbn.
      eexists. split; [reflexivity|]. now rewrite outs_app, Ht, Ht2.
  - intros [= <- <-]. destruct dl, o1 as [|x o1]; cbn [like] in *; try (destruct HF as (t & -> & Ht); cbn; eauto).
    now rewrite HF.
Qed.

Lemma step_like dl (s s' : state) tr x o :
  kind dl -> step stamp timeout s x = Ok (s', o) -> like dl (step_cb s tr x) s' o.
Proof.
  intros HK. destruct x as [i e|i p|]; cbn.
  - destruct (add stamp s i e) as [s1|]; [|discriminate]. intros [= <- <-]. cbn. destruct dl; eexists; split; reflexivity.
  - destruct (set_period s i p) as [s1|]; [|discriminate]. intros [= <- <-]. cbn. destruct dl; eexists; split; reflexivity.
  - unfold dispatch, dispatch_cb. destruct (inputs_available s).
    + intros Hl. pose proof (loop_like dl (fuel_for s) s s' (tr ++ [Main Dispatch]) o HK Hl) as HL.
      destruct dl, o as [|y o]; cbn [like] in *.
      2:{ now rewrite HL. }
      all: destruct HL as (t & -> & Ht); cbn; eexists; split; [reflexivity|]; exact Ht.
    + intros [= <- <-]. cbn. destruct dl; eexists; split; reflexivity.
Qed.

Lemma run_like dl h : forall (s s' : state) tr o,
  kind dl -> Aligner_Model.run stamp timeout s h = Ok (s', o) -> like dl (run_cb s tr h) s' o.
Proof.
  induction h as [|x h IH]; intros s s' tr o HK; cbn.
  - intros [= <- <-]. destruct dl; eexists; split; reflexivity.
  - destruct (step stamp timeout s x) as [[s1 o1]|] eqn:Hd; [|discriminate]. cbn.
    pose proof (step_like dl s s1 tr x o1 HK Hd) as HF.
    destruct (Aligner_Model.run stamp timeout s1 h) as [[s2 o2]|] eqn:Hl; [|discriminate]. cbn. intros [= <- <-].
    assert (HL : forall tr', like dl (run_cb s1 tr' h) s2 o2) by (intros tr'; now apply IH).
    destruct dl, o1 as [|y o1]; cbn [like app] in *.
    + destruct HF as (t & -> & Ht). cbn. specialize (HL (tr ++ t)). destruct o2 as [|z o2].
      * destruct HL as (t2 & -> & Ht2). cbn. eexists. split; [reflexivity|]. now rewrite outs_app, Ht, Ht2.
      * now rewrite HL.
    + now rewrite HF.
    + destruct HF as (t & -> & Ht). cbn. destruct (HL (tr ++ t)) as (t2 & -> & Ht2). cbn.
      eexists. split; [reflexivity|]. now rewrite outs_app, Ht, Ht2.
    + destruct HF as (t & -> & Ht). cbn. destruct (HL (tr ++ t)) as (t2 & -> & Ht2). cbn.
      eexists. split; [reflexivity|]. now rewrite outs_app, Ht, Ht2.
Qed.

(** callbacks call no addition, so these are all from outside *)
Lemma adds_history (tr : list item) :
  (forall o, In (Inside o) tr -> forall i e, o <> Add i e) -> adds (history tr) = adds (main_calls tr).
Proof.
  induction tr as [|x tr IH]; intros H; auto.
  assert (IH' : adds (history tr) = adds (main_calls tr)) by (apply IH; intros o Ho; apply H; now right).
  destruct x as [o|i e st|o]; cbn; auto.
  - change (adds (o :: history tr) = adds (o :: main_calls tr)). unfold adds in *. cbn. now rewrite IH'.
  - destruct o as [i e|i p|]; cbn; auto. exfalso. eapply (H (Add i e)); [now left|reflexivity].
Qed.
End Proofs.
