(** Proofs about Time64_Model: within the ranges of Time64_Spec the checked functions are the
    unchecked ones. *)
From Coq Require Import List Arith ZArith Lia Bool.
From Verif Require Import Base RclTime ApproxScale_Model ApproxScale_Props Time64_Model Time64_Spec.
From Verif Require Eps_Model Approx_Model Aligner_Model Seq_Model.
Import ListNotations.
Local Open Scope Z_scope.

Lemma is_int64_true z : in_int64 z -> is_int64 z = true.
Proof. unfold in_int64, is_int64. intros [? ?]. apply andb_true_intro; split; now apply Z.leb_le. Qed.
Lemma plus64_ok a b : in_int64 (a + b) -> plus64 a b = Ok (a + b).
Proof. intros H. unfold plus64. now rewrite (is_int64_true _ H). Qed.
Lemma minus64_ok a b : in_int64 (a - b) -> minus64 a b = Ok (a - b).
Proof. intros H. unfold minus64. now rewrite (is_int64_true _ H). Qed.

Lemma times64_ok p num den d : 64 <= p -> 0 < den -> Z.abs d * num <= int64_max * den ->
  times64 p num den d = Ok (scale_long_double p num den d).
Proof.
  intros Hp Hd H. unfold times64.
  destruct (Z.ltb_spec den num) as [Hn|]; auto. cbn [andb].
  assert (int64_max * den / num < 2 ^ 63) as Hq.
  { apply Z.div_lt_upper_bound; [lia|]. unfold int64_max. nia. }
  assert (0 <= int64_max * den) as H0 by (unfold int64_max; nia).
  pose proof (ld_lower p num Hp ltac:(lia) (int64_max * den) H0 Hq) as HL.
  assert (Z.abs d <= int64_max * den / num) as HD by (apply Z.div_le_lower_bound; lia).
  destruct (Z.ltb_spec (long_double_trunc p (int64_max * den) num) (Z.abs d)); auto; lia.
Qed.

Definition tmax := 2 ^ 61 + 2 ^ 33.

Lemma header_stamps_range {E} (stamp : E -> Z) : header_stamps stamp -> forall e, 0 <= stamp e < tmax.
Proof.
  intros H e. destruct (H e) as (m & t & Hm & Ht & ->). now apply (header_time_range m t).
Qed.

(* ------------------------------------------------------------------ *)
Section EpsProofs.
Import Eps_Model.
Context {E : Type} (stamp : E -> Z).
Variables (n queue_size : nat) (epsilon : Z).
Hypothesis HT : forall e, 0 <= stamp e < tmax.
Hypothesis HE : moderate epsilon.
Notation state := (state E).

Lemma eps_sum t : 0 <= t < tmax -> plus64 t epsilon = Ok (t + epsilon).
Proof.
  intros H. apply plus64_ok. unfold in_int64, int64_min, int64_max, tmax, moderate in *. lia.
Qed.

Lemma older_from_in is vs cur : 0 <= fst cur < tmax -> 0 <= fst (older_from stamp is vs cur) < tmax.
Proof.
  revert is cur; induction vs as [|v vs IH]; intros is cur H; cbn [older_from]; auto. apply IH.
  unfold older_between. destruct v as [|e v]; auto. destruct (stamp e <? fst cur); auto. apply HT.
Qed.

Lemma older_from_range is vs cur : fst cur = int64_max ->
  0 <= fst (older_from stamp is vs cur) < tmax \/ Forall (fun v => v = []) vs.
Proof.
  revert is cur; induction vs as [|v vs IH]; intros is cur H; cbn [older_from]; auto.
  destruct v as [|e v].
  - destruct (IH (S is) cur H); auto.
  - left. apply older_from_in. unfold older_between. rewrite H. pose proof (HT e) as He.
    destruct (Z.ltb_spec (stamp e) int64_max) as [|Hge]; auto. unfold tmax, int64_max in *; lia.
Qed.

Lemma all_within_ok older is vs :
  (0 <= fst older < tmax \/ Forall (fun v => v = []) vs) ->
  Eps64.all_within_from stamp epsilon older is vs = Ok (all_within_from stamp epsilon older is vs).
Proof.
  revert is; induction vs as [|v vs IH]; intros is H; cbn; auto.
  assert (Eps64.within stamp epsilon older is v = Ok (within stamp epsilon older is v)) as ->.
  { unfold Eps64.within, within.
    destruct (match snd older with Some j => Nat.eqb is j | None => false end); auto. cbn.
    destruct v as [|e v]; auto. destruct H as [H|H]; [|inversion H; discriminate].
    now rewrite eps_sum. }
  cbn. rewrite IH; auto. destruct H as [H|H]; auto. inversion H; auto.
Qed.

Lemma erase_from_ok ts vs : (0 <= ts < tmax \/ Forall (fun v => v = []) vs) ->
  Eps64.erase_from stamp epsilon ts vs =
  Ok (map (fun v => fst (erase_if_on_sync stamp epsilon ts v)) vs,
      list_sum (map (fun v => snd (erase_if_on_sync stamp epsilon ts v)) vs)).
Proof.
  induction vs as [|v vs IH]; intros H; cbn; auto.
  assert (Eps64.erase_if_on_sync stamp epsilon ts v = Ok (erase_if_on_sync stamp epsilon ts v)) as ->.
  { unfold Eps64.erase_if_on_sync, erase_if_on_sync. destruct v as [|e v]; auto.
    destruct H as [H|H]; [|inversion H; discriminate]. now rewrite eps_sum. }
  cbn. rewrite IH; [|destruct H as [H|H]; auto; inversion H; auto].
  destruct (erase_if_on_sync stamp epsilon ts v); reflexivity.
Qed.

Lemma eps_process_ok fuel (s : state) outs :
  Eps64.process stamp n epsilon fuel s outs = process stamp n epsilon fuel s outs.
Proof.
  revert s outs; induction fuel as [|fuel IH]; intros s outs; cbn; auto.
  destruct (Nat.eqb (count s) n); auto.
  pose proof (older_from_range 0 (events s) (int64_max, None) eq_refl) as HR.
  fold (get_older_timestamp stamp s) in HR.
  rewrite all_within_ok by auto. cbn.
  destruct (all_within_from stamp epsilon (get_older_timestamp stamp s) 0 (events s)).
  - destruct (fronts (events s)); auto.
  - unfold Eps64.erase_on_sync. rewrite erase_from_ok by auto. cbn. apply IH.
Qed.

Lemma eps_run_ok h (s : state) :
  Eps64.run stamp n queue_size epsilon s h = run stamp n queue_size epsilon s h.
Proof.
  revert s; induction h as [|ie h IH]; intros s; cbn [Eps64.run run]; auto.
  assert (Eps64.add stamp n queue_size epsilon s ie = add stamp n queue_size epsilon s ie) as ->.
  { destruct ie as [i e]. unfold Eps64.add, add. destruct (nth_error (events s) i) as [v|]; auto.
    destruct (Nat.eqb _ _); auto. apply eps_process_ok. }
  destruct (add stamp n queue_size epsilon s ie) as [[s1 o1]|]; cbn; auto. now rewrite IH.
Qed.
End EpsProofs.

(* ------------------------------------------------------------------ *)
Section ApproxProofs.
Import Approx_Model.
Context {E : Type} (stamp : E -> Z).
Variable c : cfg.
Variable times : Z -> res Z.
Variables lo w B : Z.
Hypothesis HT : forall e, 0 <= stamp e < tmax.
Hypothesis HW : forall e, lo <= stamp e <= lo + w.
Hypothesis HB : forall i, 0 <= bound c i <= B.
Hypothesis HBm : B <= 2 ^ 61.
Hypothesis HS : forall d, - w <= d <= w + B -> times d = Ok (scale c d).
Hypothesis Hn : (0 < n c)%nat.
Notation state := (state E).

(** A stamp, or the start or end of a set of stamps *)
Definition rng (t : Z) : Prop := 0 <= t < tmax /\ lo <= t <= lo + w.
(** A stamp or a virtual time *)
Definition vrng (t : Z) : Prop := 0 <= t < tmax + B /\ lo <= t <= lo + w + B.
Definition good (s : state) : Prop := rng (cstart s) /\ rng (cend s) /\ rng (ptime s).
Definition filled (s : state) : Prop := deques s <> [] /\ past s <> [].
Definition R (s : state) : Prop := filled s /\ (pivot s <> None -> good s).

Lemma rng_stamp e : rng (stamp e).
Proof. split; auto. Qed.
Lemma B_pos : 0 <= B.
Proof. pose proof (HB 0%nat). lia. Qed.
Lemma rng_vrng t : rng t -> vrng t.
Proof. unfold rng, vrng. pose proof B_pos. lia. Qed.

Lemma sub_ok a b : vrng a -> rng b -> minus64 a b = Ok (a - b).
Proof.
  intros Ha Hb. apply minus64_ok. unfold vrng, rng, in_int64, int64_min, int64_max, tmax in *. lia.
Qed.
Lemma sub_ok' a b : rng a -> rng b -> minus64 a b = Ok (a - b).
Proof. intros. apply sub_ok; auto. now apply rng_vrng. Qed.
Lemma age_ok et (s : state) : vrng et -> good s -> Approx64.age times et s = Ok (scale c (et - cend s)).
Proof.
  intros H (_ & G & _). unfold Approx64.age. rewrite sub_ok by auto. cbn. apply HS.
  unfold vrng, rng in *. lia.
Qed.

Lemma upd_nonnil {A} i (x : A) l : l <> [] -> upd i x l <> [].
Proof. destruct l as [|? l], i; cbn; congruence. Qed.
Lemma map_nonnil {A A'} (f : A -> A') l : l <> [] -> map f l <> [].
Proof. destruct l; cbn; congruence. Qed.
Lemma map2_nonnil {A A' A''} (f : A -> A' -> A'') l l' : l <> [] -> l' <> [] -> map2 f l l' <> [].
Proof. destruct l, l'; cbn; congruence. Qed.

Lemma boundary_in e ts : ts <> [] -> In (snd (boundary e ts)) ts.
Proof.
  destruct ts as [|t ts]; [congruence|intros _]. unfold boundary.
  assert (forall ts i cur, snd (boundary_from e i ts cur) = snd cur \/ In (snd (boundary_from e i ts cur)) ts) as H.
  { clear. induction ts as [|t ts IH]; intros i cur; cbn; auto.
    destruct (IH (S i) (if xorb (t <? snd cur) e then (i, t) else cur)) as [->|]; auto.
    destruct (xorb (t <? snd cur) e); auto. }
  destruct (H ts 1%nat (0%nat, t)) as [->|]; cbn; auto.
Qed.

Lemma boundary_P (P : Z -> Prop) e ts : ts <> [] -> Forall P ts -> P (snd (boundary e ts)).
Proof. intros H F. rewrite Forall_forall in F. apply F. now apply boundary_in. Qed.

Lemma fronts_nonnil (qs : list (list E)) hs : qs <> [] -> fronts qs = Some hs -> hs <> [].
Proof.
  destruct qs as [|[|e q] qs]; cbn; try congruence.
  destruct (fronts qs); congruence.
Qed.
Lemma tails_nonnil (qs : list (list E)) hs : qs <> [] -> tails qs = Some hs -> hs <> [].
Proof.
  destruct qs as [|[|e q] qs]; cbn; try congruence.
  destruct (tails qs); congruence.
Qed.

Lemma bound_violated_ok i v q :
  Approx64.bound_violated stamp c i v q = Ok (bound_violated stamp c i v q).
Proof.
  unfold Approx64.bound_violated, bound_violated.
  destruct (rev q) as [|m prevs]; auto.
  destruct (match prevs with
            | [] => match rev v with [] => None | p :: _ => Some (stamp p) end
            | p :: _ => Some (stamp p) end) as [prev|] eqn:Hp; auto.
  assert (rng prev) as HP.
  { destruct prevs as [|p ?]; [destruct (rev v) as [|p ?]; [discriminate|]|]; injection Hp as <-; apply rng_stamp. }
  destruct (stamp m <? prev); auto. rewrite sub_ok'; auto. apply rng_stamp.
Qed.

Lemma check_ok i (s : state) :
  Approx64.check_inter_message_bound stamp c i s = Ok (check_inter_message_bound stamp c i s).
Proof.
  unfold Approx64.check_inter_message_bound, check_inter_message_bound.
  destruct (nth i (warned s) false); auto. rewrite bound_violated_ok. cbn.
  destruct (bound_violated _ _ _ _ _); auto.
Qed.

Lemma virtual_time_ok (s : state) i v q : good s ->
  Approx64.virtual_time stamp c s i v q = virtual_time stamp c s i v q /\
  (forall t, virtual_time stamp c s i v q = Ok t -> vrng t).
Proof.
  intros (_ & _ & G). unfold Approx64.virtual_time, virtual_time.
  destruct (pivot s); [|split; auto; discriminate].
  destruct q as [|x q].
  - destruct (rev v) as [|l ?]; [split; auto; discriminate|].
    pose proof (HB i). pose proof (rng_stamp l) as HL.
    rewrite plus64_ok by (unfold rng, in_int64, int64_min, int64_max, tmax in *; lia). cbn.
    destruct (ptime s <? stamp l + bound c i); (split; [reflexivity|]); intros t H1; injection H1 as <-.
    + unfold rng, vrng in *. lia.
    + now apply rng_vrng.
  - split; auto. intros t H1; injection H1 as <-. apply rng_vrng, rng_stamp.
Qed.

Lemma virtual_times_ok (s : state) i vs qs : good s ->
  Approx64.virtual_times_from stamp c s i vs qs = virtual_times_from stamp c s i vs qs /\
  (forall ts, virtual_times_from stamp c s i vs qs = Ok ts -> Forall vrng ts).
Proof.
  intros G. revert i qs; induction vs as [|v vs IH]; intros i qs; cbn.
  - split; auto. intros ts H; injection H as <-. constructor.
  - destruct qs as [|q qs]. { split; auto. intros ts H; injection H as <-. constructor. }
    destruct (virtual_time_ok s i v q G) as (-> & Ht).
    destruct (virtual_time stamp c s i v q) as [t|] eqn:E1; cbn; [|split; auto; discriminate].
    destruct (IH (S i) qs) as (-> & Hts).
    destruct (virtual_times_from stamp c s (S i) vs qs) as [ts|] eqn:E2; cbn; [|split; auto; discriminate].
    split; auto. intros ts' H; injection H as <-. constructor; auto.
Qed.

Lemma virtual_times_nonnil (s : state) ts : filled s -> virtual_times stamp c s = Ok ts -> ts <> [].
Proof.
  intros (Hd & Hp). unfold virtual_times. destruct (past s) as [|v vs]; [congruence|].
  destruct (deques s) as [|q qs]; [congruence|]. cbn.
  destruct (virtual_time stamp c s 0 v q); cbn; [|discriminate].
  destruct (virtual_times_from stamp c s 1 vs qs); cbn; [|discriminate]. intros H; injection H as <-. congruence.
Qed.

Lemma publish_R (s s' : state) o : filled s -> publish s = Ok (s', o) -> R s'.
Proof.
  intros (Hd & Hp). unfold publish. destruct (candidate s); [|discriminate].
  destruct (tails _) as [dq|] eqn:Ht; [|discriminate]. intros H; injection H as <- _.
  split; [|cbn; congruence]. split; cbn.
  - eapply tails_nonnil; [|exact Ht]. now apply map2_nonnil.
  - now apply map_nonnil.
Qed.

Lemma move_front_keeps i (s s' : state) : filled s -> move_front i s = Ok s' ->
  filled s' /\ (good s -> good s') /\ pivot s' = pivot s.
Proof.
  intros (Hd & Hp). unfold move_front. destruct (nth_error (deques s) i) as [[|x q]|]; try discriminate.
  intros H; injection H as <-. split; [split; now apply upd_nonnil|]. split; auto.
Qed.

Lemma delete_front_keeps i (s s' : state) : filled s -> delete_front i s = Ok s' ->
  filled s' /\ pivot s' = pivot s.
Proof.
  intros (Hd & Hp). unfold delete_front. destruct (nth_error (deques s) i) as [[|x q]|]; try discriminate.
  intros H; injection H as <-. unfold filled; cbn. repeat split; auto; now apply upd_nonnil.
Qed.

Lemma virtual_search_ok fuel before mv (s : state) : filled s -> good s -> mv <> [] ->
  Approx64.virtual_search stamp c times fuel before mv s = virtual_search stamp c fuel before mv s /\
  (forall s' o, virtual_search stamp c fuel before mv s = Ok (s', o) -> R s').
Proof.
  revert mv s; induction fuel as [|fuel IH]; intros mv s HF HG Hm; cbn -[boundary]; [split; auto; discriminate|].
  unfold Approx64.virtual_times. destruct (virtual_times_ok s 0 (past s) (deques s) HG) as (-> & Hv).
  fold (virtual_times stamp c s) in *.
  destruct (virtual_times stamp c s) as [ts|] eqn:Et; cbn -[boundary]; [|split; auto; discriminate].
  specialize (Hv ts eq_refl). pose proof (virtual_times_nonnil s ts HF Et) as Hts.
  pose proof (boundary_P vrng true ts Hts Hv) as He. pose proof (boundary_P vrng false ts Hts Hv) as Hs.
  destruct (boundary true ts) as [ei et]. destruct (boundary false ts) as [si st]. cbn [snd] in He, Hs.
  rewrite age_ok by auto. cbn [bind]. pose proof HG as (G1 & G2 & G3).
  rewrite (sub_ok' (ptime s)) by auto. cbn [bind].
  destruct (ptime s - cstart s <=? scale c (et - cend s)).
  { split; auto. intros s' o. now apply publish_R. }
  rewrite (sub_ok st) by auto. cbn [bind].
  destruct (scale c (et - cend s) <? st - cstart s).
  { split; auto. intros s' o. unfold recover_some.
    destruct (all_le mv (past s)); cbn; [|discriminate]. destruct (Nat.eqb before _); [|discriminate].
    intros H; injection H as <- _. destruct HF as (Hd & Hp). split; [split; cbn|intros _; exact HG].
    - apply map2_nonnil; auto. now apply map2_nonnil.
    - now apply map2_nonnil. }
  destruct (match pivot s with Some p => Nat.eqb si p | None => false end); [split; auto; discriminate|].
  destruct (negb (st <? ptime s)); [split; auto; discriminate|].
  destruct (move_front si s) as [s1|] eqn:Em; cbn; [|split; auto; discriminate].
  destruct (move_front_keeps _ _ _ HF Em) as (F1 & G & _).
  apply IH; auto. now apply upd_nonnil.
Qed.

Lemma conclude_ok si et (s : state) : filled s -> good s -> rng et ->
  Approx64.conclude stamp c times si et s = conclude stamp c si et s /\
  (forall s' o, conclude stamp c si et s = Ok (s', o) -> R s').
Proof.
  intros HF HG He. unfold Approx64.conclude, conclude. pose proof HG as (G1 & G2 & G3).
  destruct (pivot s) as [p|]; [|split; auto; discriminate].
  rewrite age_ok by (auto using rng_vrng). cbn [bind].
  destruct (Nat.eqb si p). { split; auto. intros s' o. now apply publish_R. }
  rewrite (sub_ok' (ptime s)) by auto. cbn [bind].
  destruct (ptime s - cstart s <=? scale c (et - cend s)).
  { split; auto. intros s' o. now apply publish_R. }
  destruct (Nat.ltb (num s) (n c)).
  - apply virtual_search_ok; auto. destruct (n c); [lia|cbn; congruence].
  - split; auto. intros s' o H; injection H as <- _. split; auto.
Qed.

Lemma make_candidate_keeps st et (s s' : state) : filled s -> make_candidate st et s = Ok s' ->
  filled s' /\ cstart s' = st /\ cend s' = et /\ ptime s' = ptime s /\ pivot s' = pivot s.
Proof.
  intros (Hd & Hp). unfold make_candidate. destruct (fronts (deques s)); [|discriminate].
  intros H; injection H as <-. unfold filled; cbn. repeat split; auto. now apply map_nonnil.
Qed.

Lemma iteration_ok (s : state) : R s ->
  Approx64.iteration stamp c times s = iteration stamp c s /\
  (forall s' o, iteration stamp c s = Ok (s', o) -> R s').
Proof.
  intros (HF & HG). unfold Approx64.iteration, iteration.
  destruct (fronts (deques s)) as [hs|] eqn:Eh; [|split; auto; discriminate].
  assert (map stamp hs <> []) as Hne by (apply map_nonnil, (fronts_nonnil (deques s)); auto; apply HF).
  assert (Forall rng (map stamp hs)) as HR by (apply Forall_map, Forall_forall; intros; apply rng_stamp).
  pose proof (boundary_P rng true _ Hne HR) as He. pose proof (boundary_P rng false _ Hne HR) as Hs.
  destruct (boundary true (map stamp hs)) as [ei et]. destruct (boundary false (map stamp hs)) as [si st].
  cbn [snd] in He, Hs. set (s0 := clear_dropped ei s).
  assert (filled s0) as HF0 by exact HF.
  change (pivot s0) with (pivot s). change (cstart s0) with (cstart s). change (cend s0) with (cend s).
  destruct (pivot s) as [p|] eqn:Ep.
  - assert (good s0) as HG0 by (apply HG; congruence). pose proof HG0 as (G1 & G2 & G3).
    rewrite age_ok by (auto using rng_vrng). cbn [bind]. rewrite sub_ok' by auto. cbn [bind].
    change (cend s0) with (cend s). change (cstart s0) with (cstart s) in *.
    destruct (st - cstart s <=? scale c (et - cend s)).
    + destruct (move_front si s0) as [s2|] eqn:Em; cbn; [|split; auto; discriminate].
      destruct (move_front_keeps _ _ _ HF0 Em) as (F & G & _). apply conclude_ok; auto.
    + destruct (make_candidate st et s0) as [s1|] eqn:E1; cbn; [|split; auto; discriminate].
      destruct (make_candidate_keeps _ _ _ _ HF0 E1) as (F1 & C1 & C2 & C3 & _).
      destruct (move_front si s1) as [s2|] eqn:Em; cbn; [|split; auto; discriminate].
      destruct (move_front_keeps _ _ _ F1 Em) as (F & G & _). apply conclude_ok; auto.
      apply G. unfold good. rewrite C1, C2, C3. auto.
  - rewrite sub_ok' by auto. cbn [bind].
    assert (forall s1, delete_front si s0 = Ok s1 -> R s1) as HDel.
    { intros s1 Ed. destruct (delete_front_keeps _ _ _ HF0 Ed) as (F & P).
      split; auto. rewrite P. cbn. congruence. }
    destruct (max_interval c <? et - st).
    { split; auto. intros s' o. destruct (delete_front si s0) as [s1|]; cbn; [|discriminate].
      intros H; injection H as <- _. auto. }
    destruct (nth ei (dropped s0) false).
    { split; auto. intros s' o. destruct (delete_front si s0) as [s1|]; cbn; [|discriminate].
      intros H; injection H as <- _. auto. }
    destruct (make_candidate st et s0) as [s1|] eqn:E1; cbn -[set_pivot]; [|split; auto; discriminate].
    destruct (make_candidate_keeps _ _ _ _ HF0 E1) as (F1 & C1 & C2 & C3 & _).
    assert (filled (set_pivot ei et s1)) as F1' by exact F1.
    destruct (move_front si (set_pivot ei et s1)) as [s2|] eqn:Em; cbn; [|split; auto; discriminate].
    destruct (move_front_keeps _ _ _ F1' Em) as (F & G & _). apply conclude_ok; auto.
    apply G. unfold good; cbn. rewrite C1, C2. auto.
Qed.

Lemma approx_process_ok fuel (s : state) : R s ->
  Approx64.process stamp c times fuel s = process stamp c fuel s /\
  (forall s' o, process stamp c fuel s = Ok (s', o) -> R s').
Proof.
  revert s; induction fuel as [|fuel IH]; intros s HR; cbn.
  - destruct (Nat.eqb (num s) (n c)); split; auto; try discriminate.
    intros s' o H; injection H as <- _. auto.
  - destruct (Nat.eqb (num s) (n c)); [|split; auto; intros s' o H; injection H as <- _; auto].
    destruct (iteration_ok s HR) as (-> & H1).
    destruct (iteration stamp c s) as [[s1 o1]|]; cbn; [|split; auto; discriminate].
    destruct (IH s1 (H1 _ _ eq_refl)) as (-> & H2).
    destruct (process stamp c fuel s1) as [[s2 o2]|]; cbn; [|split; auto; discriminate].
    split; auto. intros s' o H; injection H as <- _. eauto.
Qed.

Lemma approx_add_ok (s : state) ie : R s ->
  Approx64.add stamp c times s ie = add stamp c s ie /\
  (forall s' o, add stamp c s ie = Ok (s', o) -> R s').
Proof.
  intros HR. destruct ie as [i e]. unfold Approx64.add, add; cbn [fst snd].
  assert (Approx64.add_process stamp c times s i e = add_process stamp c s i e /\
          (forall s' o, add_process stamp c s i e = Ok (s', o) -> R s')) as (-> & H1).
  { destruct HR as ((Hd & Hp) & HG). unfold Approx64.add_process, add_process.
    destruct (nth_error (deques s) i) as [q|]; [|split; auto; discriminate].
    set (s1 := set_queues _ _ _ s).
    assert (R s1) as HR1. { split; [split; cbn; auto; now apply upd_nonnil|exact HG]. }
    destruct (is_nil q).
    - destruct (Nat.eqb (num s1) (n c)); [now apply approx_process_ok|].
      split; auto. intros s' o H; injection H as <- _. auto.
    - rewrite check_ok. split; auto. intros s' o H; injection H as <- _.
      unfold check_inter_message_bound. destruct (nth i (warned s1) false); auto.
      destruct (bound_violated _ _ _ _ _); auto. }
  destruct (add_process stamp c s i e) as [[s1 o1]|]; cbn; [|split; auto; discriminate].
  specialize (H1 _ _ eq_refl).
  assert (Approx64.add_overflow stamp c times s1 i = add_overflow stamp c s1 i /\
          (forall s' o, add_overflow stamp c s1 i = Ok (s', o) -> R s')) as (-> & H2).
  { destruct H1 as ((Hd & Hp) & HG). unfold Approx64.add_overflow, add_overflow.
    destruct (Nat.ltb _ _); [|split; auto; intros s' o H; injection H as <- _; split; [split|]; auto].
    assert (deques (recover_all s1) <> []) as D1 by (cbn; now apply map2_nonnil).
    assert (past (recover_all s1) <> []) as P1 by (cbn; now apply map_nonnil).
    destruct (nth i (deques (recover_all s1)) []) as [|x q]; [split; auto; discriminate|].
    cbn [pivot]. change (pivot (recover_all s1)) with (pivot s1).
    destruct (pivot s1) eqn:Ep.
    - apply approx_process_ok. split; [split; cbn; auto; now apply upd_nonnil|cbn; congruence].
    - split; auto. intros s' o H; injection H as <- _.
      split; [split; cbn; auto; now apply upd_nonnil|cbn; congruence]. }
  destruct (add_overflow stamp c s1 i) as [[s2 o2]|]; cbn; [|split; auto; discriminate].
  split; auto. intros s' o H; injection H as <- _. eauto.
Qed.

Lemma approx_run_ok h (s : state) : R s ->
  Approx64.run stamp c times s h = run stamp c s h.
Proof.
  revert s; induction h as [|ie h IH]; intros s HR; cbn; auto.
  destruct (approx_add_ok s ie HR) as (-> & H1).
  destruct (add stamp c s ie) as [[s1 o1]|]; cbn; auto. rewrite IH; eauto.
Qed.

Lemma approx_init_R : R (init c).
Proof.
  split; [|cbn; congruence]. split; cbn; destruct (n c); cbn; try lia; congruence.
Qed.
End ApproxProofs.

(* ------------------------------------------------------------------ *)
Section AlignerProofs.
Import Aligner_Model.
Context {E : Type} (stamp : E -> Z).
Variable timeout : Z.
Hypothesis HT : forall e, 0 <= stamp e < tmax.
Notation state := (state E).

Definition qok (q : queue E) : Prop :=
  moderate (period q) /\ - 2 ^ 61 <= next_ts q <= int64_max.
Definition sok (s : state) : Prop := Forall qok (queues s) /\ 0 <= last_in s < tmax.

Lemma first_time_stamp_ok q : qok q ->
  Aligner64.first_time_stamp stamp q = Ok (first_time_stamp stamp q) /\
  qok (fst (first_time_stamp stamp q)) /\
  - 2 ^ 61 <= snd (first_time_stamp stamp q) <= int64_max.
Proof.
  intros (HP & HN). unfold Aligner64.first_time_stamp, first_time_stamp.
  destruct (evs q) as [|e l] eqn:Ee.
  - destruct (active q); (split; [reflexivity|split; [split; assumption|cbn; auto; unfold int64_max; lia]]).
  - pose proof (HT e). unfold moderate in HP.
    rewrite plus64_ok by (unfold in_int64, int64_min, int64_max, tmax in *; lia). cbn.
    split; [reflexivity|]. split; [split|]; cbn [fst snd period next_ts]; auto; unfold int64_max, tmax in *; lia.
Qed.

Lemma first_time_stamps_ok qs : Forall qok qs ->
  Aligner64.first_time_stamps stamp qs = Ok (map (first_time_stamp stamp) qs) /\
  Forall qok (map fst (map (first_time_stamp stamp) qs)).
Proof.
  induction 1 as [|q qs Hq HF IH]; cbn; auto.
  destruct (first_time_stamp_ok q Hq) as (-> & Q & _). destruct IH as (-> & IH). cbn. auto.
Qed.

Lemma Forall_upd {A} (P : A -> Prop) i x l : P x -> Forall P l -> Forall P (upd i x l).
Proof.
  intros Hx HF. revert i; induction HF as [|y l Hy HF IH]; intros [|i]; cbn; auto.
Qed.

Lemma dispatch_first_ok (s : state) : sok s ->
  Aligner64.dispatch_first stamp timeout s = dispatch_first stamp timeout s /\
  (forall s' o b, dispatch_first stamp timeout s = Ok (s', o, b) -> sok s').
Proof.
  intros (HF & HL). unfold Aligner64.dispatch_first, dispatch_first.
  destruct (first_time_stamps_ok (queues s) HF) as (-> & HQ). cbn [bind].
  set (qs := map fst (map (first_time_stamp stamp) (queues s))) in *.
  set (idx := first_sample_idx _).
  destruct (nth_error qs idx) as [q|] eqn:En; [|split; auto; discriminate].
  assert (qok q) as Hq by (rewrite Forall_forall in HQ; apply HQ; now apply nth_error_In in En).
  destruct (evs q) as [|e l] eqn:Ee.
  - destruct (first_time_stamp_ok q Hq) as (-> & _ & HS). cbn.
    destruct (first_time_stamp stamp q) as [q' ts]. cbn [snd] in HS |- *.
    rewrite minus64_ok by (unfold in_int64, int64_min, int64_max, tmax in *; lia). cbn.
    destruct (timeout <=? last_in s - ts); (split; [auto|]); intros s' o b H; injection H as <- _ _.
    + split; cbn; auto. apply Forall_upd; auto.
    + split; auto.
  - split; auto. intros s' o b H; injection H as <- _ _. split; cbn; auto. apply Forall_upd; auto.
Qed.

Lemma dispatch_loop_ok fuel (s : state) : sok s ->
  Aligner64.dispatch_loop stamp timeout fuel s = dispatch_loop stamp timeout fuel s /\
  (forall s' o, dispatch_loop stamp timeout fuel s = Ok (s', o) -> sok s').
Proof.
  revert s; induction fuel as [|fuel IH]; intros s HS; cbn -[dispatch_first]; [split; auto; discriminate|].
  destruct (dispatch_first_ok s HS) as (-> & H1).
  destruct (dispatch_first stamp timeout s) as [[[s1 o1] b]|]; cbn; [|split; auto; discriminate].
  specialize (H1 _ _ _ eq_refl). destruct b.
  - destruct (IH s1 H1) as (-> & H2).
    destruct (dispatch_loop stamp timeout fuel s1) as [[s2 o2]|]; cbn; [|split; auto; discriminate].
    split; auto. intros s' o H; injection H as <- _. eauto.
  - split; auto. intros s' o H; injection H as <- _. auto.
Qed.

Lemma step_ok (s : state) o : sok s -> (forall i p, o = SetPeriod i p -> moderate p) ->
  Aligner64.step stamp timeout s o = step stamp timeout s o /\
  (forall s' out, step stamp timeout s o = Ok (s', out) -> sok s').
Proof.
  intros HS HP. destruct o as [i e|i p|]; cbn.
  - split; auto. intros s' out. unfold add. destruct HS as (HF & HL).
    destruct (nth_error (queues s) i) as [q|] eqn:En; cbn; [|discriminate].
    assert (qok q) as Hq by (rewrite Forall_forall in HF; apply HF; now apply nth_error_In in En).
    pose proof (HT e). destruct (stamp e <? last_out s); cbn; intros H1; injection H1 as <- _;
      (split; cbn; [apply Forall_upd; auto|auto]).
    destruct (last_in s <? stamp e); auto.
  - split; auto. intros s' out. unfold set_period. destruct HS as (HF & HL).
    destruct (nth_error (queues s) i) as [q|] eqn:En; cbn; [|discriminate].
    assert (qok q) as Hq by (rewrite Forall_forall in HF; apply HF; now apply nth_error_In in En).
    intros H1; injection H1 as <- _. split; cbn; auto. apply Forall_upd; auto.
    split; cbn; [eauto|apply Hq].
  - unfold Aligner64.dispatch, dispatch. destruct (inputs_available s).
    + now apply dispatch_loop_ok.
    + split; auto. intros s' out H; injection H as <- _. auto.
Qed.

Lemma aligner_run_ok h (s : state) : sok s -> moderate_periods h ->
  Aligner64.run stamp timeout s h = run stamp timeout s h.
Proof.
  revert s; induction h as [|o h IH]; intros s HS HP; cbn [Aligner64.run run]; auto.
  destruct (step_ok s o HS) as (-> & H1). { intros i p ->. apply (HP i). now left. }
  destruct (step stamp timeout s o) as [[s1 o1]|]; cbn; auto. rewrite IH; eauto.
  intros i p Hi. apply (HP i). now right.
Qed.

Lemma aligner_init_ok n : sok (init n).
Proof.
  split; [|cbn; unfold tmax; lia]. cbn. apply Forall_forall. intros q Hq.
  apply repeat_spec in Hq as ->. split; cbn; unfold moderate, int64_max; lia.
Qed.
End AlignerProofs.

(* ------------------------------------------------------------------ *)
Section SeqProofs.
Import Seq_Model.
Context {E : Type} (stamp : E -> time).
Variables (queue_size : nat) (delay : Z).
Hypothesis HT : forall e, 0 <= ns (stamp e) < tmax.
Hypothesis HD : moderate delay.

Lemma seq_dispatch_ok nows ms last :
  Seq64.dispatch stamp delay nows ms last = dispatch stamp delay nows ms last.
Proof.
  revert nows last; induction ms as [|e ms IH]; intros nows last; cbn; auto.
  pose proof (HT e). unfold moderate in HD.
  rewrite plus64_ok by (unfold in_int64, int64_min, int64_max, tmax in *; lia). cbn.
  unfold time_add. destruct (time_le _ _) as [[]|]; cbn; auto. now rewrite IH.
Qed.

Lemma seq_run_ok h s :
  Seq64.run stamp queue_size delay s h = run stamp queue_size delay s h.
Proof.
  revert s; induction h as [|o h IH]; intros s; cbn; auto.
  assert (Seq64.step stamp queue_size delay s o = step stamp queue_size delay s o) as ->.
  { destruct o; cbn; auto. apply seq_dispatch_ok. }
  destruct (step stamp queue_size delay s o) as [[s1 o1]|]; cbn; auto. now rewrite IH.
Qed.
End SeqProofs.
