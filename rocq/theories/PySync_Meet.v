(** The Python TimeSynchronizer refines the rendezvous table as long as everything fits. *)
From Coq Require Import List ZArith Bool Lia Permutation.
From Verif Require Import Base Py_Model PySync_Spec PySync_Proofs PySync_Runs PySync_Policies.
Import ListNotations.
Open Scope Z_scope.

Section Meet.
Context {M : Type}.
Notation dict := (list (Z * M)).
Variable k : nat.

Lemma meet_app (h1 : list (op M)) : forall tab h2, meet k tab (h1 ++ h2) =
  (fst (meet k (fst (meet k tab h1)) h2), snd (meet k tab h1) ++ snd (meet k (fst (meet k tab h1)) h2)).
Proof.
  induction h1 as [|o h1 IH]; intros tab h2; cbn; [now destruct (meet k tab h2)|]. destruct (seat k tab o) as [tab1 out]. rewrite IH. destruct (meet k tab1 h1) as [tab2 outs]; cbn.
  destruct (meet k tab2 h2); reflexivity.
Qed.
Lemma meet_snoc tab (h : list (op M)) o : meet k tab (h ++ [o]) = (fst (seat k (fst (meet k tab h)) o), snd (meet k tab h) ++ [snd (seat k (fst (meet k tab h)) o)]).
Proof. rewrite meet_app. cbn. now destruct (seat k (fst (meet k tab h)) o). Qed.
Lemma all_some_spec (l : list (option M)) : forall ms, all_some l = Some ms <-> l = map Some ms.
Proof.
  induction l as [|[m|] l IH]; cbn; intros ms.
  - split; [intros E; now injection E as <-|]. destruct ms; [auto|discriminate].
  - destruct (all_some l) as [ms'|]; split; try discriminate.
    + intros E. injection E as <-. cbn. f_equal. now apply IH.
    + destruct ms as [|m' ms]; [discriminate|]. cbn. intros E. injection E as -> E. apply IH in E. congruence.
    + destruct ms as [|m' ms]; [discriminate|]. cbn. intros E. injection E as -> E. apply IH in E. discriminate.
  - split; [discriminate|]. destruct ms; discriminate.
Qed.

(** queues and table agree *)
Definition rel (qs : list dict) (tab : table (M := M)) : Prop :=
  length qs = k /\ (forall t, length (tab t) = k) /\ forall j q, nth_error qs j = Some q -> forall t m, In (t, m) q <-> nth_error (tab t) j = Some (Some m).

Lemma rel_store n i t m qs qs1 tab : rel qs tab -> Forall dictok qs -> (i < k)%nat -> stores n i t m qs qs1 ->
  (forall q, nth_error qs i = Some q -> Z.of_nat (length (put t m q)) <= n) ->
  rel qs1 (set_row tab t (upd i (Some m) (tab t))).
Proof.
  intros (R1 & R2 & R3) F Hi (q & q' & Eq & Es & ->) Hn. assert (Hq : dictok q) by (rewrite Forall_forall in F; apply F; eapply nth_error_In; eauto).
  assert (q' = put t m q) as ->.
  { pose proof (shorten_Some _ _ _ Es) as H0. destruct (shorten_spec n (put t m q) H0 (put_ok _ _ _ Hq)) as (q2 & d & E2 & P & _ & _ & _ & S2 & S3). rewrite Es in E2. injection E2 as <-.
    destruct d as [|a d]; [now apply S2|]. assert (Hz : Z.of_nat (length q') = n) by (apply S3; discriminate). apply Permutation_length in P. rewrite app_length in P. cbn in P. specialize (Hn q Eq). lia. }
  assert (Ht : exists old, nth_error (tab t) i = Some old). { destruct (nth_error (tab t) i) eqn:E; eauto. apply nth_error_None in E. rewrite R2 in E. lia. }
  destruct Ht as (old & Ht). split; [now rewrite upd_length|]. split.
  - intros t'. unfold set_row. destruct (t' =? t); [rewrite upd_length|]; auto.
  - intros j q0 E0 t' m'. unfold set_row. destruct (Nat.eq_dec i j) as [<-|N].
    + rewrite (nth_error_upd_eq _ _ _ _ Eq) in E0. injection E0 as <-. rewrite put_In by auto. destruct (Z.eqb_spec t' t) as [->|Nt].
      * rewrite (nth_error_upd_eq _ _ _ _ Ht). split; [intros [[_ ->]|[_ []]]; auto|]. intros E. injection E as ->. auto.
      * rewrite <- (R3 i q Eq). tauto.
    + rewrite nth_error_upd_neq in E0 by auto. rewrite (R3 j q0 E0). destruct (Z.eqb_spec t' t) as [->|Nt]; [|reflexivity]. now rewrite nth_error_upd_neq.
Qed.
Lemma rel_row qs tab t ms : rel qs tab -> Forall dictok qs -> choice qs (map (fun _ => t) qs) -> get_all qs (map (fun _ => t) qs) = Some ms -> tab t = map Some ms.
Proof.
  intros (R1 & R2 & R3) F C G. destruct (get_all_spec _ _ C F) as (ms' & G' & HL & H). rewrite G in G'. injection G' as <-.
  assert (Heq : forall j, nth_error (tab t) j = nth_error (map Some ms) j).
  { intros j. rewrite nth_error_map. destruct (nth_error qs j) as [q|] eqn:Eq.
    - destruct (H j q t Eq) as (m & Em & Hm); [now rewrite nth_error_map, Eq|]. rewrite Em. cbn. now apply (R3 j q Eq).
    - apply nth_error_None in Eq. assert (E1 : nth_error (tab t) j = None) by (apply nth_error_None; rewrite R2; lia). assert (E2 : nth_error ms j = None) by (apply nth_error_None; lia). now rewrite E1, E2. }
  revert Heq. generalize (map Some ms), (tab t). clear. intros l l'. revert l. induction l' as [|a l' IH]; intros [|b l] H; auto; try (specialize (H 0%nat); discriminate).
  f_equal; [specialize (H 0%nat); cbn in H; congruence|apply IH; intros j; apply (H (S j))].
Qed.
Lemma rel_full qs tab t ms : rel qs tab -> tab t = map Some ms -> choice qs (map (fun _ => t) qs).
Proof.
  intros (R1 & R2 & R3) E. apply choice_same. intros q Hq. apply In_nth_error in Hq as (j & Hj). destruct (nth_error ms j) as [m|] eqn:Em.
  - eapply key_in. apply (R3 j q Hj t m). now rewrite E, nth_error_map, Em.
  - apply nth_error_None in Em. specialize (R2 t). rewrite E, map_length in R2. assert (j < length qs)%nat by (apply nth_error_Some; congruence). lia.
Qed.
Lemma rel_deliver qs tab t : rel qs tab -> Forall dictok qs -> rel (map (del t) qs) (set_row tab t (repeat None k)).
Proof.
  intros (R1 & R2 & R3) F. split; [now rewrite map_length|]. split; [intros t'; unfold set_row; destruct (t' =? t); auto; apply repeat_length|].
  intros j q0 E0 t' m'. rewrite nth_error_map in E0. destruct (nth_error qs j) as [q|] eqn:Eq; [|discriminate]. injection E0 as <-. rewrite del_In by (rewrite Forall_forall in F; apply F; eapply nth_error_In; eauto).
  unfold set_row. destruct (Z.eqb_spec t' t) as [->|N].
  - split; [intros [_ []]; auto|]. intros E. apply nth_error_In, repeat_spec in E. discriminate.
  - rewrite (R3 j q Eq). tauto.
Qed.

Lemma set_row_twice (tab : table (M := M)) t a b : forall t', set_row (set_row tab t a) t b t' = set_row tab t b t'.
Proof. intros t'. unfold set_row. now destruct (t' =? t). Qed.
Lemma rel_ext qs tab tab' : (forall t, tab t = tab' t) -> rel qs tab -> rel qs tab'.
Proof. intros E (R1 & R2 & R3). split; auto. split; [intros t; rewrite <- E; auto|]. intros j q Hj t m. rewrite <- E. auto. Qed.

Lemma stamps_In (h : list (op M)) t : In t (stamps h) <-> exists i m now, In (Add i m (Stamp t) now) h.
Proof.
  unfold stamps. rewrite nodup_In, in_flat_map. split.
  - intros ([i m hd now] & Ho & H). destruct hd as [| |t']; try (destruct H; fail). destruct H as [->|[]]. eauto.
  - intros (i & m & now & H). exists (Add i m (Stamp t) now). cbn. auto.
Qed.
Lemma meet_stamps (h : list (op M)) t j m : nth_error (fst (meet k (empty_table k) h) t) j = Some (Some m) -> In t (stamps h).
Proof.
  revert m. induction h as [|o h IH] using rev_ind; intros m.
  - cbn. intros E. apply nth_error_In, repeat_spec in E. discriminate.
  - rewrite meet_snoc. cbn [fst]. assert (Hw : forall t, In t (stamps h) -> In t (stamps (h ++ [o]))).
    { intros t0 H. apply stamps_In in H as (i & x & now & H). apply stamps_In. exists i, x, now. apply in_or_app. auto. }
    destruct o as [i x hd now]. destruct hd as [| |t']; cbn [seat fst]; eauto.
    assert (Hd : forall row, nth_error (set_row (fst (meet k (empty_table k) h)) t' row t) j = Some (Some m) -> t = t' \/ In t (stamps h)).
    { intros row. unfold set_row. destruct (Z.eqb_spec t t'); eauto. }
    assert (In t' (stamps (h ++ [Add i x (Stamp t') now]))) by (apply stamps_In; exists i, x, now; apply in_or_app; cbn; auto).
    destruct (all_some _); cbn [fst]; intros E; apply Hd in E as [->|E]; auto.
Qed.

Variable raises : list M -> bool.
Hypothesis Hr : forall ms, raises ms = false.
Variable n : Z.

Lemma put_room (qs : list dict) h i t m q : rel qs (fst (meet k (empty_table k) h)) -> nth_error qs i = Some q -> dictok q ->
  (length (put t m q) <= S (length (filter (fun t' => negb (Z.eqb t' t)) (waiting k h i))))%nat.
Proof.
  intros (R1 & R2 & R3) Eq Hq. rewrite <- (map_length fst (put t m q)). change (length (t :: filter (fun t' => negb (t' =? t)) (waiting k h i))) with (S (length (filter (fun t' => negb (t' =? t)) (waiting k h i)))).
  apply (NoDup_incl_length (l := keys (put t m q)) (l' := t :: filter (fun t' => negb (t' =? t)) (waiting k h i))); [now apply put_ok|].
  intros x Hx. apply in_map_iff in Hx as ((x' & y) & E & Hx). cbn in E. subst x'. apply put_In in Hx as [[-> _]|[Hx N]]; auto; [now left|right].
  apply filter_In. split; [|apply negb_true_iff; now apply Z.eqb_neq]. pose proof (proj1 (R3 i q Eq x y) Hx) as E. unfold waiting. apply filter_In. split; [eapply meet_stamps; eauto|]. now rewrite E.
Qed.

Lemma meets h : stamped k h -> fits k n h ->
  exists s, run (add_exact raises) (pysync_init k n) h = Ok (s, map (fun out => (out, false)) (snd (meet k (empty_table k) h))) /\ locked s = false /\ rel (queues s) (fst (meet k (empty_table k) h)).
Proof.
  induction h as [|o h IH] using rev_ind; intros Hs Hf.
  - exists (pysync_init k n). cbn. split; auto. split; auto. split; [apply repeat_length|]. split; [intros t; apply repeat_length|]. intros j q E t m. apply nth_error_In, repeat_spec in E as ->.
    split; [intros []|]. intros E. apply nth_error_In, repeat_spec in E. discriminate.
  - destruct IH as (s & E & El & R).
    { intros i m hd now Hin. apply (Hs i m hd now). apply in_or_app. auto. }
    { intros p i m t now q ->. apply (Hf p i m t now (q ++ [o])). now rewrite <- app_assoc. }
    destruct o as [i m hd now]. destruct (Hs i m hd now) as (Hi & t & ->); [apply in_or_app; cbn; auto|]. specialize (Hf h i m t now [] eq_refl).
    set (tab := fst (meet k (empty_table k) h)) in *. rewrite meet_snoc. fold tab.
    assert (Hadd : exists s' out ex, add_exact raises s (Add i m (Stamp t) now) = Ok (s', out, ex)).
    { cbn. unfold exact_add. rewrite El. destruct (nth_error (queues s) i) as [q|] eqn:Eq; [|apply nth_error_None in Eq; destruct R as (R1 & _); lia]. destruct (shorten _ _); eauto.
      destruct (deliver_common _ _ _) as [[s' out] ex]. eauto. }
    destruct Hadd as (s' & out & ex & Ea). destruct (run_step_kind _ _ _ _ (exact_obeys raises) _ _ _ _ _ _ _ _ _ _ _ _ _ E Ea eq_refl) as (K & _ & HF & HC & Hn).
    assert (Hrun : forall (s2 : pysync M) (out2 : list (list M)), add_exact raises s (Add i m (Stamp t) now) = Ok (s2, out2, false) -> run (add_exact raises) (pysync_init k n) (h ++ [Add i m (Stamp t) now]) =
       Ok (s2, map (fun o => (o, false)) (snd (meet k (empty_table k) h) ++ [out2]))).
    { intros s2 out2 E2. revert E E2. clear. generalize (pysync_init (M := M) k n), (snd (meet k (empty_table k) h)). induction h as [|o h IH]; intros s0 l E E2.
      - cbn in E. injection E as -> E. destruct l; [|discriminate]. cbn [app]. cbn [run]. rewrite E2. reflexivity.
      - cbn [run app] in *. destruct (add_exact raises s0 o) as [[[s1 o1] e1]|]; cbn [bind] in *; [|discriminate]. destruct (run (add_exact raises) s1 h) as [[s3 rs3]|] eqn:E3; cbn [bind] in *; [|discriminate].
        injection E as -> E. destruct l as [|x l]; [discriminate|]. cbn in E. injection E as -> -> ->. rewrite (IH _ _ E3 E2). reflexivity. }
    assert (Hput : forall q, nth_error (queues s) i = Some q -> Z.of_nat (length (put t m q)) <= queue_size s).
    { intros q Eq. rewrite Hn. assert (Hq : dictok q) by (rewrite Forall_forall in HF; apply HF; eapply nth_error_In; eauto). pose proof (put_room (queues s) h i t m q R Eq Hq). lia. }
    assert (Hst : forall qs1, stores (queue_size s) i t m (queues s) qs1 -> rel qs1 (set_row tab t (upd i (Some m) (tab t))) /\ Forall dictok qs1 /\ nth_error (map (fun _ : dict => t) qs1) i = Some t).
    { intros qs1 St. split; [eapply rel_store; eauto|]. destruct (stores_facts _ _ _ _ _ _ St HF) as (F1 & HL & _). split; auto. rewrite nth_error_map.
      destruct (nth_error qs1 i) eqn:En; auto. apply nth_error_None in En. destruct R as (R1 & _). lia. }
    cbn [seat]. inversion K as [Hneg|qs1 St No|qs1 vv ms St C G Ev Eg Er|qs1 vv ms St C G Ev Eg Er]; subst s' out ex.
    + lia.
    + destruct (Hst _ St) as (R1 & F1 & Hnth). destruct (all_some (upd i (Some m) (tab t))) as [ms|] eqn:Ef.
      { exfalso. apply all_some_spec in Ef. assert (C : choice qs1 (map (fun _ => t) qs1)). { eapply (rel_full _ _ _ ms); [exact R1|]. unfold set_row. rewrite Z.eqb_refl. exact Ef. } apply (No _ C Hnth). apply same_map. }
      exists (with_queues s qs1). split; [apply Hrun; exact Ea|]. split; auto.
    + destruct (Hst _ St) as (R1 & F1 & Hnth). assert (vv = map (fun _ => t) qs1) as ->.
      { pose proof (choice_length _ _ C) as HL. assert (Ha : forall x, In x vv -> x = t) by (intros x Hx; apply G; auto; eapply nth_error_In; eauto). revert HL Ha. clear. revert qs1.
        induction vv as [|x vv IH]; intros [|q qs1] HL Ha; cbn in *; try lia; auto. f_equal; auto. }
      pose proof (rel_row _ _ _ _ R1 F1 C Eg) as Erow. unfold set_row in Erow. rewrite Z.eqb_refl in Erow. rewrite (proj2 (all_some_spec _ ms) Erow). cbn [fst snd].
      exists (with_queues s (del_all qs1 (map (fun _ => t) qs1))). split; [apply Hrun; exact Ea|]. split; auto. cbn [queues with_queues]. rewrite <- map_del_all.
      eapply rel_ext; [apply set_row_twice|]. apply rel_deliver; eauto.
    + rewrite Hr in Er. discriminate.
Qed.
End Meet.
