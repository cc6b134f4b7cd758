(** C55, C56, C77, C78, C79: the Python synchronizers. *)
From Coq Require Import List ZArith Bool Lia Permutation.
From Verif Require Import Base Py_Model PySync_Spec PySync_Proofs PySync_Runs PySync_Policies PySync_Meet.
Import ListNotations.
Open Scope Z_scope.

Section Props.
Context {M : Type}.
Variable raises : list M -> bool.      (* which sets make a callback raise an exception *)

(** ** Facts common to both policies, from the invariant *)
Section Common.
Variable good : list Z -> Prop.
Variable add : pysync M -> op M -> res (pysync M * list (list M) * bool).
Variable hl : bool.
Hypothesis Hobeys : obeys raises good add hl.
Variables (k : nat) (n : Z).

Definition sets_of (h : list (op M)) (out : list (list M)) (D : list (list (Z * M))) : Prop :=
  out = map (map snd) D /\ Forall (fun x => length x = k /\ good (map fst x)) D /\
  forall i, (i < k)%nat -> exists rest, Permutation (arrived hl i h) (column i D ++ rest).

Lemma common_sets h s rs : run add (pysync_init k n) h = Ok (s, rs) -> exists D, sets_of h (delivered rs) D.
Proof. intros E. destruct (run_sound _ _ _ _ Hobeys _ _ _ _ _ E) as (D & [A1 A2 A3 A4 A5 A6]). exists D. split; auto. Qed.
Lemma common_kept h s rs : run add (pysync_init k n) h = Ok (s, rs) -> locked s = false -> exists D, sets_of h (delivered rs) D /\
  forall i, (i < k)%nat -> exists q dropped, nth_error (queues s) i = Some q /\ Z.of_nat (length q) <= Z.max 0 n /\ NoDup (map fst q) /\
    Permutation (arrived hl i h) (column i D ++ q ++ dropped) /\
    (NoDup (map fst (arrived hl i h)) -> Z.of_nat (length (arrived hl i h)) <= n -> dropped = []).
Proof.
  intros E El. destruct (run_sound _ _ _ _ Hobeys _ _ _ _ _ E) as (D & [A1 A2 A3 A4 A5 A6]). exists D. split; [split; auto|]. destruct (A6 El) as (_ & HF & HB & HH).
  intros i Hi. destruct (nth_error (queues s) i) as [q|] eqn:Eq; [|apply nth_error_None in Eq; lia]. destruct (HH i q Eq) as (d & P & Hd). exists q, d. split; auto.
  rewrite Forall_forall in HF, HB. pose proof (nth_error_In _ _ Eq) as Hin. split; [apply HB; auto|]. split; [apply HF; auto|]. auto.
Qed.
Lemma common_calm h s rs : run add (pysync_init k n) h = Ok (s, rs) -> locked s = false -> forall ts, choice (queues s) ts -> ts <> [] -> ~ good ts.
Proof. intros E El. destruct (run_sound _ _ _ _ Hobeys _ _ _ _ _ E) as (D & [_ _ _ _ _ A6]). now destruct (A6 El) as (HC & _). Qed.

(** the delivered sets of one call *)
Lemma common_call h s rs i m hd now s' out ex : run add (pysync_init k n) h = Ok (s, rs) -> add s (Add i m hd now) = Ok (s', out, ex) ->
  out = [] \/ exists ms, out = [ms] /\ length ms = k /\ nth_error ms i = Some m.
Proof.
  intros E Ea. destruct (run_sound _ _ _ _ Hobeys _ _ _ _ _ E) as (D & [_ HL _ _ _ _]). destruct (time_of hl hd now) as [t|] eqn:Ht.
  - destruct (run_step_kind _ _ _ _ Hobeys _ _ _ _ _ _ _ _ _ _ _ _ _ E Ea Ht) as (K & _ & HF & _).
    assert (Hd : forall qs1 vv ms, stores (queue_size s) i t m (queues s) qs1 -> choice qs1 vv -> nth_error vv i = Some t -> get_all qs1 vv = Some ms -> length ms = k /\ nth_error ms i = Some m).
    { intros qs1 vv ms St C Ev Eg. destruct (stores_facts _ _ _ _ _ _ St HF) as (F1 & HL1 & _ & q & q' & d & Eq & Eq' & _ & _ & _ & Hin & _). destruct (get_all_spec _ _ C F1) as (ms' & Eg' & Lms & H).
      rewrite Eg in Eg'. injection Eg' as <-. split; [congruence|]. destruct (H i q' t Eq' Ev) as (m' & Em & Hm). apply Hin in Hm.
      assert (Hq : dictok q) by (rewrite Forall_forall in HF; apply HF; eapply nth_error_In; eauto). apply put_In in Hm as [[_ ->]|[_ []]]; auto. }
    inversion K as [Hneg|qs1 St No|qs1 vv ms St C G Ev Eg Er|qs1 vv ms St C G Ev Eg Er]; subst; auto; right; exists ms; destruct (Hd _ _ _ St C Ev Eg); auto.
  - pose proof (Hobeys _ _ _ _ _ _ _ _ Ea) as H. rewrite Ht in H. left. apply H.
Qed.
(** what one call removes from the queue of its input *)
Lemma common_dropped h s rs i m hd now t s' out : run add (pysync_init k n) h = Ok (s, rs) -> add s (Add i m hd now) = Ok (s', out, false) -> time_of hl hd now = Some t ->
  exists q q' gone, nth_error (queues s) i = Some q /\ nth_error (queues s') i = Some q' /\
    Permutation ((t, m) :: q) (q' ++ map (fun _ => (t, m)) out ++ gone) /\
    (forall x, In x gone -> (In x q /\ fst x = t) \/ (n <= Z.of_nat (length q') + Z.of_nat (length out) /\ forall y, In y q' -> fst x < fst y)) /\
    (forall j, j <> i -> out = [] -> nth_error (queues s') j = nth_error (queues s) j).
Proof.
  intros E Ea Ht. destruct (run_step_kind _ _ _ _ Hobeys _ _ _ _ _ _ _ _ _ _ _ _ _ E Ea Ht) as (K & _ & HF & _ & Hn).
  inversion K as [Hneg|qs1 St No|qs1 vv ms St C G Ev Eg Er|]; subst.
  - destruct (stores_facts _ _ _ _ _ _ St HF) as (F1 & HL1 & _ & q & q' & d & Eq & Eq' & Ho & P & _ & Hin & Hd & _). exists q, q', d. cbn [map app queues with_queues length]. split; auto. split; auto. split; auto. split; auto.
    intros x Hx. destruct (Hd x Hx) as [H|[H1 H2]]; auto. right. split; auto. lia.
  - destruct (stores_facts _ _ _ _ _ _ St HF) as (F1 & HL1 & _ & q & q' & d & Eq & Eq' & Ho & P & _ & Hin & Hd & _).
    assert (Hq' : dictok q') by (rewrite Forall_forall in F1; apply F1; eapply nth_error_In; eauto).
    assert (Hq : dictok q) by (rewrite Forall_forall in HF; apply HF; eapply nth_error_In; eauto).
    assert (Htq : In t (keys q')) by (apply choice_nth in C as [_ C]; eapply C; eauto).
    assert (Htm : In (t, m) q').
    { apply in_map_iff in Htq as ((t' & m') & Et & Hm). cbn in Et. subst t'. pose proof (Hin _ Hm) as Hp. apply put_In in Hp as [[_ ->]|[_ []]]; auto. }
    exists q, (del t q'), d. cbn [map app queues with_queues length]. split; auto. split; [eapply del_all_nth; eauto|]. split.
    { rewrite P. rewrite (del_perm t m q' Hq' Htm) at 1. cbn. rewrite Permutation_middle. reflexivity. }
    split; [|discriminate]. intros x Hx. destruct (Hd x Hx) as [H|[H1 H2]]; auto. right. pose proof (del_length t q' Htq). split; [lia|].
    intros [ty my] Hy. apply H2. apply del_In in Hy; tauto.
Qed.
End Common.

(** ** C55: TimeSynchronizer *)
Notation exact k n := (run (add_exact raises) (pysync_init k n)).
(** Every set has one message per input, all with one stamp; the messages of a set are distinct
    arrivals of their inputs: no arrival is used twice.  Also when callbacks raise. *)
Theorem C55_sets_match k n h s rs : exact k n h = Ok (s, rs) ->
  exists D, delivered rs = map (map snd) D /\ Forall (fun x => length x = k /\ same (map fst x)) D /\
    forall i, (i < k)%nat -> exists rest, Permutation (arrived false i h) (column i D ++ rest).
Proof. intros E. exact (common_sets _ _ _ (exact_obeys raises) k n h s rs E). Qed.
(** Each input stores at most [n] messages, all of them arrivals not yet delivered, of different stamps. *)
Theorem C55_stored k n h s rs : exact k n h = Ok (s, rs) -> locked s = false ->
  exists D, delivered rs = map (map snd) D /\ forall i, (i < k)%nat -> exists q dropped, nth_error (queues s) i = Some q /\
    Z.of_nat (length q) <= Z.max 0 n /\ NoDup (map fst q) /\ Permutation (arrived false i h) (column i D ++ q ++ dropped).
Proof.
  intros E El. destruct (common_kept _ _ _ (exact_obeys raises) k n h s rs E El) as (D & (HD & _) & H). exists D. split; auto. intros i Hi. destruct (H i Hi) as (q & d & A & B & C & P & _). exists q, d. auto.
Qed.
(** One call delivers at most one set, and it contains the new message. *)
Theorem C55_one_per_call k n h s rs i m hd now s' out ex : exact k n h = Ok (s, rs) -> add_exact raises s (Add i m hd now) = Ok (s', out, ex) ->
  out = [] \/ exists ms, out = [ms] /\ length ms = k /\ nth_error ms i = Some m.
Proof. apply common_call with (good := same) (hl := false). apply exact_obeys. Qed.

(** ** C78: TimeSynchronizer is complete *)
Theorem C78_delivers_what_meets k n h : (forall ms, raises ms = false) -> stamped k h -> fits k n h ->
  exists s, exact k n h = Ok (s, map (fun out => (out, false)) (snd (meet k (empty_table k) h))).
Proof. intros Hr Hs Hf. destruct (meets k raises Hr n h Hs Hf) as (s & E & _). eauto. Qed.
Theorem C78_nothing_waits k n h s rs : exact k n h = Ok (s, rs) -> locked s = false -> (0 < k)%nat ->
  forall t, exists i q, nth_error (queues s) i = Some q /\ ~ In t (map fst q).
Proof.
  intros E El Hk t. pose proof (common_calm _ _ _ (exact_obeys raises) k n h s rs E El) as HC.
  destruct (run_sound _ _ _ _ (exact_obeys raises) _ _ _ _ _ E) as (D & [_ HL _ _ _ _]).
  assert (Hdec : (forall q, In q (queues s) -> In t (keys q)) \/ exists q, In q (queues s) /\ ~ In t (keys q)).
  { generalize (queues s). induction l as [|q l [IH|(q' & H1 & H2)]]; [left; intros q []| |right; exists q'; split; auto; now right].
    destruct (in_dec Z.eq_dec t (keys q)) as [H|H]; [left; intros q' [<-|Hq]; auto|right; exists q; split; auto; now left]. }
  destruct Hdec as [H|(q & Hq & H)].
  - exfalso. apply (HC (map (fun _ => t) (queues s))); [now apply choice_same| |apply same_map]. destruct (queues s); [cbn in HL; lia|discriminate].
  - apply In_nth_error in Hq as (i & Hi). eauto.
Qed.
(** A message leaves the queue undelivered only if a message of the same stamp replaces it or [n]
    messages with larger stamps are there. *)
Theorem C78_dropped k n h s rs i m t now s' out : exact k n h = Ok (s, rs) -> add_exact raises s (Add i m (Stamp t) now) = Ok (s', out, false) ->
  exists q q' gone, nth_error (queues s) i = Some q /\ nth_error (queues s') i = Some q' /\
    Permutation ((t, m) :: q) (q' ++ map (fun _ => (t, m)) out ++ gone) /\
    (forall x, In x gone -> (In x q /\ fst x = t) \/ (n <= Z.of_nat (length q') + Z.of_nat (length out) /\ forall y, In y q' -> fst x < fst y)) /\
    (forall j, j <> i -> out = [] -> nth_error (queues s') j = nth_error (queues s) j).
Proof. intros E Ea. exact (common_dropped _ _ _ (exact_obeys raises) k n h s rs i m _ now t s' out E Ea eq_refl). Qed.

(** ** C56: ApproximateTimeSynchronizer *)
Section Approx.
Variables (slop : Z) (hl : bool).
Notation approx k n := (run (add_approx raises slop hl) (pysync_init k n)).
Theorem C56_sets_fit k n h s rs : approx k n h = Ok (s, rs) ->
  exists D, delivered rs = map (map snd) D /\ Forall (fun x => length x = k /\ within slop (map fst x)) D /\
    forall i, (i < k)%nat -> exists rest, Permutation (arrived hl i h) (column i D ++ rest).
Proof. intros E. exact (common_sets _ _ _ (approx_obeys raises slop hl) k n h s rs E). Qed.
Theorem C56_stored k n h s rs : approx k n h = Ok (s, rs) -> locked s = false ->
  exists D, delivered rs = map (map snd) D /\ forall i, (i < k)%nat -> exists q dropped, nth_error (queues s) i = Some q /\
    Z.of_nat (length q) <= Z.max 0 n /\ NoDup (map fst q) /\ Permutation (arrived hl i h) (column i D ++ q ++ dropped).
Proof.
  intros E El. destruct (common_kept _ _ _ (approx_obeys raises slop hl) k n h s rs E El) as (D & (HD & _) & H). exists D. split; auto. intros i Hi. destruct (H i Hi) as (q & d & A & B & C & P & _). exists q, d. auto.
Qed.
Theorem C56_one_per_call k n h s rs i m hd now s' out ex : approx k n h = Ok (s, rs) -> add_approx raises slop hl s (Add i m hd now) = Ok (s', out, ex) ->
  out = [] \/ exists ms, out = [ms] /\ length ms = k /\ nth_error ms i = Some m.
Proof. apply common_call with (good := within slop) (hl := hl). apply approx_obeys. Qed.

(** ** C79 *)
Theorem C79_nothing_waits k n h s rs : approx k n h = Ok (s, rs) -> locked s = false ->
  forall ts, choice (queues s) ts -> ts <> [] -> ~ within slop ts.
Proof. exact (common_calm _ _ _ (approx_obeys raises slop hl) k n h s rs). Qed.
Lemma choice_dec (qs : list (list (Z * M))) : forall ts, length ts = length qs -> choice qs ts \/ exists j q t, nth_error qs j = Some q /\ nth_error ts j = Some t /\ ~ In t (map fst q).
Proof.
  induction qs as [|q qs IH]; intros [|t ts] HL; cbn in HL; try lia; [left; constructor|]. destruct (in_dec Z.eq_dec t (map fst q)) as [H|H].
  - destruct (IH ts) as [C|(j & q' & t' & E)]; [lia|left; constructor; auto|right; exists (S j), q', t'; auto].
  - right. exists 0%nat, q, t. auto.
Qed.
(** If every input gets at most [n] messages, of different stamps, then every combination of arrived
    messages that fits has a member that was delivered. *)
Theorem C79_complete k n h s rs : approx k n h = Ok (s, rs) -> locked s = false -> (0 < k)%nat ->
  (forall i, (i < k)%nat -> NoDup (map fst (arrived hl i h)) /\ Z.of_nat (length (arrived hl i h)) <= n) ->
  exists D, delivered rs = map (map snd) D /\ Forall (fun x => length x = k /\ within slop (map fst x)) D /\
    forall c, length c = k -> (forall i x, nth_error c i = Some x -> In x (arrived hl i h)) -> within slop (map fst c) ->
      exists i x, nth_error c i = Some x /\ In x (column i D).
Proof.
  intros E El Hk Hn. destruct (common_kept _ _ _ (approx_obeys raises slop hl) k n h s rs E El) as (D & (HD & HG & _) & H). exists D. split; auto. split; auto. intros c Lc Hc W.
  pose proof (C79_nothing_waits k n h s rs E El) as HC. destruct (run_sound _ _ _ _ (approx_obeys raises slop hl) _ _ _ _ _ E) as (D0 & [_ HL _ _ _ _]).
  destruct (choice_dec (queues s) (map fst c)) as [C|(j & q & t & Eq & Et & N)]; [rewrite map_length; congruence| |].
  - exfalso. apply (HC _ C); auto. destruct c; [cbn in Lc; lia|discriminate].
  - rewrite nth_error_map in Et. destruct (nth_error c j) as [x|] eqn:Ex; [|discriminate]. injection Et as <-. assert (Hj : (j < k)%nat) by (rewrite <- Lc; apply nth_error_Some; congruence).
    destruct (H j Hj) as (q' & d & Eq' & _ & _ & P & Hd). rewrite Eq in Eq'. injection Eq' as <-. destruct (Hn j Hj) as [Nd Len]. rewrite (Hd Nd Len), app_nil_r in P. exists j, x. split; auto.
    pose proof (Permutation_in _ P (Hc j x Ex)) as Hin. apply in_app_or in Hin as [Hin|Hin]; auto. exfalso. apply N. now apply in_map.
Qed.
(** The set delivered prefers, input by input, the stamps closest to the new one: [qs1] are the
    queues with the new message, [vv] the stamps of the set. *)
Theorem C79_closest k n h s rs i m hd now t s' ms ex : approx k n h = Ok (s, rs) -> add_approx raises slop hl s (Add i m hd now) = Ok (s', [ms], ex) -> time_of hl hd now = Some t ->
  exists qs1 vv, (forall j, j <> i -> nth_error qs1 j = nth_error (queues s) j) /\ choice qs1 vv /\ length vv = k /\
    (forall j q, nth_error qs1 j = Some q -> exists v x, nth_error vv j = Some v /\ nth_error ms j = Some x /\ In (v, x) q) /\
    forall ts, choice qs1 ts -> within slop ts -> nth_error ts i = Some t -> no_farther t vv ts.
Proof.
  intros E Ea Ht. destruct (run_step_kind _ _ _ _ (approx_obeys raises slop hl) _ _ _ _ _ _ _ _ _ _ _ _ _ E Ea Ht) as (_ & _ & HF & _).
  destruct (run_sound _ _ _ _ (approx_obeys raises slop hl) _ _ _ _ _ E) as (D0 & [_ HL _ _ _ _]).
  assert (Ea' : approx_stamped raises slop s i m t = Ok (s', [ms], ex)).
  { cbn in Ea. unfold approx_add in Ea. destruct hd; cbn in Ht; try discriminate; [destruct hl; [|discriminate]|]; injection Ht as <-; exact Ea. }
  destruct (stamped_closest _ _ _ _ _ _ _ _ _ Ea' HF) as (qs1 & vv & St & C & Eg & H). destruct (stores_facts _ _ _ _ _ _ St HF) as (F1 & HL1 & _ & q & q' & d & _ & _ & Ho & _).
  exists qs1, vv. split; auto. split; auto. split; [rewrite (choice_length _ _ C); congruence|]. split; auto. intros j q0 E0. destruct (get_all_spec _ _ C F1) as (ms' & Eg' & _ & Hm). rewrite Eg in Eg'. injection Eg' as <-.
  destruct (nth_error vv j) as [v|] eqn:Ev; [|apply nth_error_None in Ev; rewrite (choice_length _ _ C) in Ev; apply nth_error_None in Ev; congruence]. destruct (Hm j q0 v E0 Ev) as (x & Ex & Hx). eauto.
Qed.
(** With a slop of zero nothing is ever delivered, not even messages with equal stamps. *)
Theorem C79_zero_slop k n h s rs : approx k n h = Ok (s, rs) -> (0 < k)%nat -> slop <= 0 -> delivered rs = [].
Proof.
  intros E Hk Hs. destruct (C56_sets_fit k n h s rs E) as (D & -> & F & _). destruct D as [|x D]; auto. exfalso. inversion F as [|? ? [HL W] _]; subst. destruct x as [|a x]; [cbn in Hk; lia|].
  specialize (W (fst a) (fst a)). cbn in W. lia.
Qed.
(** Dropping as in C78. *)
Theorem C79_dropped k n h s rs i m hd now t s' out : approx k n h = Ok (s, rs) -> add_approx raises slop hl s (Add i m hd now) = Ok (s', out, false) -> time_of hl hd now = Some t ->
  exists q q' gone, nth_error (queues s) i = Some q /\ nth_error (queues s') i = Some q' /\
    Permutation ((t, m) :: q) (q' ++ map (fun _ => (t, m)) out ++ gone) /\
    (forall x, In x gone -> (In x q /\ fst x = t) \/ (n <= Z.of_nat (length q') + Z.of_nat (length out) /\ forall y, In y q' -> fst x < fst y)) /\
    (forall j, j <> i -> out = [] -> nth_error (queues s') j = nth_error (queues s) j).
Proof. exact (common_dropped _ _ _ (approx_obeys raises slop hl) k n h s rs i m hd now t s' out). Qed.
End Approx.

(** ** C77: exceptions *)
Lemma deliver_raised ts : forall (s s' : pysync M) out, deliver_common raises s ts = (s', out, true) -> locked s' = true.
Proof.
  induction ts as [|t ts IH]; intros s s' out; cbn; [discriminate|]. destruct (get_all _ _) as [ms|]; [|intros E; injection E as <- _; auto].
  destruct (raises ms); [intros E; injection E as <- _; auto|]. destruct (deliver_common raises _ ts) as [[s1 o1] e1] eqn:E1. intros E. injection E as -> _ ->. eapply IH; eauto.
Qed.
(** What happens instead: after an exception every later call blocks for ever. *)
Theorem C77_exact_blocks s i m hd now s' out : add_exact raises s (Add i m hd now) = Ok (s', out, true) ->
  forall o, add_exact raises s' o = Err Deadlock.
Proof.
  intros E [i' m' hd' now']. assert (Hl : locked s' = true).
  { cbn in E. unfold exact_add in E. destruct (locked s); [discriminate|]. destruct (nth_error _ _); [|discriminate]. destruct hd; [injection E as <- _; auto..|].
    destruct (shorten _ _); [|injection E as <- _; auto]. injection E as E. eapply deliver_raised; eauto. }
  cbn. unfold exact_add. now rewrite Hl.
Qed.
Theorem C77_approx_blocks slop hl s i m hd now s' out : add_approx raises slop hl s (Add i m hd now) = Ok (s', out, true) -> hd <> BadStamp ->
  forall i' m' hd' now', time_of hl hd' now' <> None -> add_approx raises slop hl s' (Add i' m' hd' now') = Err Deadlock.
Proof.
  intros E Hb i' m' hd' now' Ht. assert (Hl : locked s' = true).
  { assert (Hs : forall t, approx_stamped raises slop s i m t = Ok (s', out, true) -> locked s' = true).
    { intros t E'. unfold approx_stamped in E'. destruct (locked s); [discriminate|]. destruct (nth_error _ _); [|discriminate]. destruct (shorten _ _); [|injection E' as <- _; auto].
      destruct (existsb _ _); [discriminate|]. destruct (search _ _ _ _ _); [|discriminate]. destruct (get_all _ _) as [ms|]; [|injection E' as <- _; auto]. destruct (raises ms); [|discriminate]. injection E' as <- _; auto. }
    cbn in E. unfold approx_add in E. destruct hd; [destruct hl; [eapply Hs; eauto|discriminate]|contradiction|eapply Hs; eauto]. }
  cbn. unfold approx_add, approx_stamped. rewrite Hl. destruct hd'; cbn in Ht; auto; [destruct hl; auto|]; contradiction.
Qed.
(** As long as no call has raised, every call on an existing input returns.  Missing: calls after
    an exception, see C77_refuted. *)
Lemma exact_unlocked s o s' out : add_exact raises s o = Ok (s', out, false) -> locked s' = false.
Proof.
  destruct o as [i m hd now]. cbn. unfold exact_add. destruct (locked s) eqn:El; [discriminate|]. destruct (nth_error _ _); [|discriminate]. destruct hd; try discriminate. destruct (shorten _ _) as [q'|]; [|discriminate].
  intros E. injection E as E. revert E. set (s0 := with_queues s _). assert (locked s0 = false) by exact El. clearbody s0. generalize (common (upd i q' (queues s))). intros ts. revert s0 H out. clear.
  induction ts as [|t ts IH]; intros s Hl out; cbn; [intros E; injection E as <- _; auto|]. destruct (get_all _ _) as [ms|]; [|discriminate]. destruct (raises ms); [discriminate|].
  destruct (deliver_common raises _ ts) as [[s1 o1] e1] eqn:E1. intros E. injection E as -> _ ->. eapply IH; [|exact E1]. exact Hl.
Qed.
Lemma approx_unlocked slop hl s o s' out : locked s = false -> add_approx raises slop hl s o = Ok (s', out, false) -> locked s' = false.
Proof.
  destruct o as [i m hd now]. intros El. assert (Hs : forall t, approx_stamped raises slop s i m t = Ok (s', out, false) -> locked s' = false).
  { intros t. unfold approx_stamped. rewrite El. destruct (nth_error _ _); [|discriminate]. destruct (shorten _ _); [|discriminate]. destruct (existsb _ _); [intros E; injection E as <- _; auto|].
    destruct (search _ _ _ _ _); [|intros E; injection E as <- _; auto]. destruct (get_all _ _) as [ms|]; [|discriminate]. destruct (raises ms); [discriminate|]. intros E; injection E as <- _; auto. }
  cbn. unfold approx_add. destruct hd; [destruct hl; [apply Hs|intros E; injection E as <- _; auto]|discriminate|apply Hs].
Qed.
Lemma run_unlocked (add : pysync M -> op M -> res (pysync M * list (list M) * bool)) k n : (forall s o s' out, locked s = false -> add s o = Ok (s', out, false) -> locked s' = false) ->
  forall h s rs, run add (pysync_init k n) h = Ok (s, rs) -> Forall (fun r => snd r = false) rs -> locked s = false.
Proof.
  intros Ha. induction h as [|o h IH] using rev_ind; intros s rs E F; [injection E as <- _; auto|]. apply run_snoc in E as (s1 & rs1 & out & ex & E1 & E2 & ->).
  apply Forall_app in F as [F1 F2]. inversion F2 as [|? ? F3 _]; subst. cbn in F3. subst ex. eapply Ha; eauto.
Qed.
Theorem C77_returns_partial k n h s rs i m hd now : exact k n h = Ok (s, rs) -> Forall (fun r => snd r = false) rs -> (i < k)%nat ->
  exists r, add_exact raises s (Add i m hd now) = Ok r.
Proof.
  intros E F Hi. pose proof (run_unlocked _ _ _ (fun s o s' out _ => exact_unlocked s o s' out) _ _ _ E F) as El. destruct (run_sound _ _ _ _ (exact_obeys raises) _ _ _ _ _ E) as (D0 & [_ HL _ _ _ _]).
  cbn. unfold exact_add. rewrite El. destruct (nth_error (queues s) i) eqn:Eq; [|apply nth_error_None in Eq; lia]. destruct hd; eauto. destruct (shorten _ _); eauto.
Qed.
Theorem C77_approx_returns_partial slop hl k n h s rs i m hd now : run (add_approx raises slop hl) (pysync_init k n) h = Ok (s, rs) -> Forall (fun r => snd r = false) rs -> (i < k)%nat ->
  exists r, add_approx raises slop hl s (Add i m hd now) = Ok r.
Proof.
  intros E F Hi. pose proof (run_unlocked _ _ _ (approx_unlocked slop hl) _ _ _ E F) as El. destruct (run_sound _ _ _ _ (approx_obeys raises slop hl) _ _ _ _ _ E) as (D0 & [_ HL _ _ _ _]).
  assert (Hs : forall t, exists r, approx_stamped raises slop s i m t = Ok r).
  { intros t. unfold approx_stamped. rewrite El. destruct (nth_error (queues s) i) eqn:Eq; [|apply nth_error_None in Eq; lia]. destruct (shorten _ _); eauto. destruct (existsb _ _); eauto.
    destruct (search _ _ _ _ _); eauto. destruct (get_all _ _) as [ms|]; eauto. destruct (raises ms); eauto. }
  cbn. unfold approx_add. destruct hd; eauto. destruct hl; eauto.
Qed.
(** and no call raises if no callback does, stamps are present and [n] is not negative *)
Theorem C77_no_exception_partial k n h : (forall ms, raises ms = false) -> stamped k h -> 0 <= n ->
  exists s rs, exact k n h = Ok (s, rs) /\ Forall (fun r => snd r = false) rs /\ length rs = length h.
Proof.
  intros Hr Hs Hn. induction h as [|o h IH] using rev_ind.
  - exists (pysync_init k n), []. cbn. auto.
  - destruct IH as (s & rs & E & F & L); [intros i m hd now Hin; apply (Hs i m hd now), in_or_app; auto|]. destruct o as [i m hd now]. destruct (Hs i m hd now) as (Hi & t & ->); [apply in_or_app; cbn; auto|].
    destruct (C77_returns_partial k n h s rs i m (Stamp t) now E F Hi) as ([[s' out] ex] & Ea). destruct (run_step_kind _ _ _ _ (exact_obeys raises) _ _ _ _ _ _ _ _ _ _ _ _ _ E Ea eq_refl) as (K & _ & _ & _ & Hq).
    assert (ex = false) as ->. { inversion K; subst; auto; [lia|]. rewrite Hr in *. discriminate. }
    exists s', (rs ++ [(out, false)]). split; [|split; [apply Forall_app; auto|rewrite !app_length, L; auto]].
    revert E Ea. clear. generalize (pysync_init (M := M) k n). revert rs. induction h as [|o h IH]; intros rs s0 E Ea.
    + cbn in E. injection E as -> <-. cbn [app run]. rewrite Ea. reflexivity.
    + cbn [app run] in *. destruct (add_exact raises s0 o) as [[[s1 o1] e1]|]; cbn [bind] in *; [|discriminate]. destruct (run (add_exact raises) s1 h) as [[s3 rs3]|] eqn:E3; cbn [bind] in *; [|discriminate].
      injection E as -> <-. rewrite (IH _ _ E3 Ea). reflexivity.
Qed.
End Props.

(** ** The refuted claim and instances *)
Definition never (ms : list nat) := false.
Definition on7 (ms : list nat) := existsb (Nat.eqb 7) ms.
Definition st (i : nat) (m : nat) (t : Z) := Add i m (Stamp t) 0.

(** a callback raises on the set containing 7; the next message blocks *)
Theorem C77_refuted : exists s rs, run (add_exact on7) (pysync_init 2 10) [st 0 7 5; st 1 1 5] = Ok (s, rs) /\ map snd rs = [false; true] /\
  add_exact on7 s (st 0 2 6) = Err Deadlock.
Proof. eexists _, _. split; [vm_compute; reflexivity|]. split; vm_compute; reflexivity. Qed.
(** so does a message without a header, and a negative queue size *)
Theorem C77_no_header_refuted : exists s rs, run (add_exact never) (pysync_init 2 10) [st 0 1 5; Add 1 2%nat NoHeader 0] = Ok (s, rs) /\ map snd rs = [false; true] /\
  add_exact never s (st 1 3 5) = Err Deadlock.
Proof. eexists _, _. split; [vm_compute; reflexivity|]. split; vm_compute; reflexivity. Qed.
Theorem C77_negative_size_refuted : exists s rs, run (add_approx never 5 false) (pysync_init 2 (-1)) [st 0 1 5] = Ok (s, rs) /\ map snd rs = [true] /\
  add_approx never 5 false s (st 1 3 5) = Err Deadlock.
Proof. eexists _, _. split; [vm_compute; reflexivity|]. split; vm_compute; reflexivity. Qed.

(** three inputs, out of order, stamp 10 repeated on input 0 (message 1 replaced by 4) *)
Definition e55 := [st 0 1 10; st 1 2 10; st 2 3 20; st 0 4 10; st 1 5 20; st 2 6 10; st 0 7 20].
Example e55_run : exists s, run (add_exact never) (pysync_init 3 2) e55 = Ok (s, [([], false); ([], false); ([], false); ([], false); ([], false); ([[4; 2; 6]%nat], false); ([[7; 5; 3]%nat], false)]) /\ locked s = false.
Proof. eexists. split; vm_compute; reflexivity. Qed.
Example e55_meets : stamped 3 e55 /\ fits 3 2 e55 /\ concat (snd (meet 3 (empty_table 3) e55)) = [[4; 2; 6]%nat; [7; 5; 3]%nat].
Proof.
  split; [|split; [|vm_compute; reflexivity]].
  - intros i m hd now H. repeat (destruct H as [E|H]; [injection E as <- <- <- <-; split; [lia|eauto]|]). destruct H.
  - intros p i m t now q E. do 7 (destruct p as [|? p]; [injection E as <- <- <- <- <-; vm_compute; discriminate|injection E as <- E]). destruct p; discriminate.
Qed.
(** with room for one message the older stamp is evicted *)
Example e55_evicted : exists s, run (add_exact never) (pysync_init 2 1) [st 0 1 10; st 0 2 20; st 1 3 10; st 1 4 20] = Ok (s, [([], false); ([], false); ([], false); ([[2; 4]%nat], false)]).
Proof. eexists. vm_compute; reflexivity. Qed.
(** approximate: headers optional; the closest candidate (stamp 11) is preferred to the older 8 *)
Definition e56 := [st 0 1 8; st 0 2 11; st 1 3 40; Add 1 4%nat NoHeader 12; st 0 5 38].
Example e56_run : exists s, run (add_approx never 5 true) (pysync_init 2 9) e56 = Ok (s, [([], false); ([], false); ([], false); ([[2; 4]%nat], false); ([[5; 3]%nat], false)]) /\ locked s = false /\
  queues s = [[(8, 1%nat)]; []].
Proof. eexists. split; [vm_compute; reflexivity|]. split; reflexivity. Qed.
Example e56_arrived : forall i, (i < 2)%nat -> NoDup (map fst (arrived true i e56)) /\ Z.of_nat (length (arrived true i e56)) <= 9.
Proof. intros [|[|i]] Hi; [| |lia]; cbn; (split; [repeat constructor; cbn; lia|lia]). Qed.
Example e56_zero : exists s, run (add_approx never 0 false) (pysync_init 2 9) [st 0 1 10; st 1 2 10] = Ok (s, [([], false); ([], false)]).
Proof. eexists. vm_compute; reflexivity. Qed.

Print Assumptions C55_sets_match.
Print Assumptions C55_stored.
Print Assumptions C55_one_per_call.
Print Assumptions C78_delivers_what_meets.
Print Assumptions C78_nothing_waits.
Print Assumptions C78_dropped.
Print Assumptions C56_sets_fit.
Print Assumptions C56_stored.
Print Assumptions C56_one_per_call.
Print Assumptions C79_nothing_waits.
Print Assumptions C79_complete.
Print Assumptions C79_closest.
Print Assumptions C79_zero_slop.
Print Assumptions C79_dropped.
Print Assumptions C77_exact_blocks.
Print Assumptions C77_approx_blocks.
Print Assumptions C77_returns_partial.
Print Assumptions C77_approx_returns_partial.
Print Assumptions C77_no_exception_partial.
Print Assumptions C77_refuted.
