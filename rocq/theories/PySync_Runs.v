(** The Python synchronizers: an invariant of every run, common to both policies. *)
From Coq Require Import List ZArith Bool Lia Permutation.
From Verif Require Import Base Py_Model PySync_Spec PySync_Proofs.
Import ListNotations.
Open Scope Z_scope.

Section Runs.
Context {M : Type}.
Notation dict := (list (Z * M)).

Lemma run_snoc (add : pysync M -> op M -> res (pysync M * list (list M) * bool)) : forall h s o s2 rs,
  run add s (h ++ [o]) = Ok (s2, rs) -> exists s1 rs1 out ex, run add s h = Ok (s1, rs1) /\ add s1 o = Ok (s2, out, ex) /\ rs = rs1 ++ [(out, ex)].
Proof.
  induction h as [|a h IH]; intros s o s2 rs; cbn.
  - destruct (add s o) as [[[s1 out] ex]|] eqn:Ea; cbn; [|discriminate]. intros E. injection E as <- <-. exists s, [], out, ex. auto.
  - destruct (add s a) as [[[s1 out] ex]|]; cbn; [|discriminate]. destruct (run add s1 (h ++ [o])) as [[s3 rs3]|] eqn:E; cbn; [|discriminate]. intros E'. injection E' as <- <-.
    destruct (IH _ _ _ _ E) as (s4 & rs4 & out4 & ex4 & E1 & E2 & ->). rewrite E1. cbn. exists s4, ((out, ex) :: rs4), out4, ex4. auto.
Qed.
Lemma delivered_snoc (rs : list (list (list M) * bool)) out ex : delivered (rs ++ [(out, ex)]) = delivered rs ++ out.
Proof. unfold delivered. now rewrite map_app, concat_app; cbn; rewrite app_nil_r. Qed.
Lemma column_app {A} i (a b : list (list A)) : column i (a ++ b) = column i a ++ column i b.
Proof. apply flat_map_app. Qed.
Lemma arrived_snoc hl i h (o : op M) : arrived hl i (h ++ [o]) = arrived hl i h ++ arrival hl i o.
Proof. unfold arrived. rewrite flat_map_app. cbn. now rewrite app_nil_r. Qed.
Lemma combine_snd {A B} (a : list A) : forall (b : list B), length a = length b -> map snd (combine a b) = b.
Proof. induction a; intros [|y b] H; cbn in *; try lia; f_equal; auto. Qed.
Lemma combine_fst {A B} (a : list A) : forall (b : list B), length a = length b -> map fst (combine a b) = a.
Proof. induction a; intros [|y b] H; cbn in *; try lia; f_equal; auto. Qed.
Lemma nth_error_combine {A B} (a : list A) : forall (b : list B) j x y, nth_error a j = Some x -> nth_error b j = Some y -> nth_error (combine a b) j = Some (x, y).
Proof. induction a; intros [|z b] [|j] x y; cbn; try discriminate; auto. congruence. Qed.
Lemma column1 {A} j (x : list A) a : nth_error x j = Some a -> column j [x] = [a].
Proof. intros E. unfold column. cbn. now rewrite E. Qed.
Lemma arrival_other hl i j m hd now : j <> i -> arrival hl j (Add (M := M) i m hd now) = [].
Proof. intros N. unfold arrival. apply Nat.eqb_neq in N. now rewrite N. Qed.
Lemma arrival_same hl i m hd now t : time_of hl hd now = Some t -> arrival hl i (Add (M := M) i m hd now) = [(t, m)].
Proof. intros E. unfold arrival. now rewrite Nat.eqb_refl, E. Qed.
Lemma arrival_none hl j i m hd now : time_of hl hd now = None -> arrival hl j (Add (M := M) i m hd now) = [].
Proof. intros E. unfold arrival. rewrite E. now destruct (Nat.eqb j i). Qed.

Variable raises : list M -> bool.
Variable good : list Z -> Prop.
Variable add : pysync M -> op M -> res (pysync M * list (list M) * bool).
Variable hl : bool.
(** what both policies satisfy *)
Definition obeys : Prop := forall s i m hd now s' out ex, add s (Add i m hd now) = Ok (s', out, ex) ->
  match time_of hl hd now with
  | None => out = [] /\ queues s' = queues s /\ queue_size s' = queue_size s /\ (locked s = true -> locked s' = true) /\ (ex = false -> s' = s)
  | Some t => locked s = false /\ (Forall dictok (queues s) -> calm good (queues s) -> step_kind raises good s i t m (s', out, ex))
  end.
Hypothesis Hadd : obeys.
Variable k : nat.
Variable n : Z.

Record sound (h : list (op M)) (rs : list (list (list M) * bool)) (s : pysync M) (D : list (list (Z * M))) : Prop := mkSound {
  so_size : queue_size s = n;
  so_len : length (queues s) = k;
  so_out : delivered rs = map (map snd) D;
  so_good : Forall (fun x => length x = k /\ good (map fst x)) D;
  so_once : forall i, (i < k)%nat -> exists rest, Permutation (arrived hl i h) (column i D ++ rest);
  so_live : locked s = false -> calm good (queues s) /\ Forall dictok (queues s) /\ Forall (fun q => Z.of_nat (length q) <= Z.max 0 n) (queues s) /\
    forall i q, nth_error (queues s) i = Some q -> exists dropped, Permutation (arrived hl i h) (column i D ++ q ++ dropped) /\
      (NoDup (map fst (arrived hl i h)) -> Z.of_nat (length (arrived hl i h)) <= n -> dropped = [])
}.

Lemma perm_mid {A} (a b c : list A) x : Permutation (a ++ x :: b ++ c) ((a ++ [x]) ++ b ++ c).
Proof. now rewrite <- app_assoc. Qed.

(** the queues hold each arrival not yet delivered, or drop it; [qs1]: after storing *)
Definition holds (h : list (op M)) (D : list (list (Z * M))) (qs : list dict) : Prop :=
  forall i q, nth_error qs i = Some q -> exists dropped, Permutation (arrived hl i h) (column i D ++ q ++ dropped) /\
    (NoDup (map fst (arrived hl i h)) -> Z.of_nat (length (arrived hl i h)) <= n -> dropped = []).
Lemma holds_once h D qs i : holds h D qs -> (i < length qs)%nat -> exists rest, Permutation (arrived hl i h) (column i D ++ rest).
Proof. intros H Hi. destruct (nth_error qs i) as [q|] eqn:E; [|apply nth_error_None in E; lia]. destruct (H i q E) as (d & P & _). eauto. Qed.

Lemma holds_store h D qs qs1 i m hd now t : time_of hl hd now = Some t -> stores n i t m qs qs1 -> Forall dictok qs -> holds h D qs -> holds (h ++ [Add i m hd now]) D qs1.
Proof.
  intros Ht St F H j q1 E1. destruct (stores_facts _ _ _ _ _ _ St F) as (_ & HL & Hn & q & q' & d & Eq & Eq' & Ho & P & _ & _ & _ & Hd). rewrite arrived_snoc. destruct (Nat.eq_dec j i) as [->|N].
  - rewrite Eq' in E1. injection E1 as <-. rewrite (arrival_same _ _ _ _ _ _ Ht). destruct (H i q Eq) as (d0 & P0 & E0). exists (d ++ d0). split.
    + rewrite <- Permutation_cons_append, P0. rewrite Permutation_middle. apply Permutation_app_head. change ((t, m) :: q ++ d0) with (((t, m) :: q) ++ d0). rewrite P. now rewrite !app_assoc.
    + intros Nd Hl. rewrite map_app in Nd. cbn [map fst] in Nd. rewrite app_length in Hl. cbn [length] in Hl.
      assert (Nt : ~ In t (map fst (arrived hl i h))). { apply NoDup_remove_2 in Nd. now rewrite app_nil_r in Nd. }
      apply NoDup_remove_1 in Nd. rewrite app_nil_r in Nd.
      rewrite (E0 Nd) in * by lia. rewrite app_nil_r. apply Hd.
      * intros Hk. apply Nt. apply in_map_iff in Hk as (x & Ex & Hx). apply in_map_iff. exists x. split; auto. eapply Permutation_in; [symmetry; exact P0|]. rewrite !in_app_iff. auto.
      * apply Permutation_length in P0. rewrite !app_length in P0. cbn in P0. lia.
  - rewrite (Ho j N) in E1. rewrite (arrival_other _ _ _ _ _ _ N), app_nil_r. auto.
Qed.
Lemma holds_deliver h D qs1 vv ms : holds h D qs1 -> Forall dictok qs1 -> choice qs1 vv -> get_all qs1 vv = Some ms -> holds h (D ++ [combine vv ms]) (del_all qs1 vv).
Proof.
  intros H F C G j q1 E1. destruct (get_all_spec _ _ C F) as (ms' & G' & HL & Hms). rewrite G in G'. injection G' as <-.
  assert (Hj : (j < length qs1)%nat) by (rewrite <- (del_all_length qs1 vv); apply nth_error_Some; congruence).
  destruct (nth_error qs1 j) as [q|] eqn:Eq; [|apply nth_error_None in Eq; lia]. destruct (nth_error vv j) as [v|] eqn:Ev; [|apply nth_error_None in Ev; rewrite (choice_length _ _ C) in Ev; lia].
  rewrite (del_all_nth _ _ _ _ _ Eq Ev) in E1. injection E1 as <-. destruct (Hms j q v Eq Ev) as (x & Ex & Hx). destruct (H j q Eq) as (d & P & Hd). exists d. split; auto.
  rewrite column_app, (column1 j _ (v, x)) by now apply nth_error_combine. rewrite P. rewrite <- perm_mid. apply Permutation_app_head.
  assert (Hq : dictok q) by (rewrite Forall_forall in F; apply F; eapply nth_error_In; eauto). change ((v, x) :: del v q ++ d) with (((v, x) :: del v q) ++ d). apply Permutation_app_tail. now apply del_perm.
Qed.

Lemma sound_init : sound [] [] (pysync_init k n) [].
Proof.
  assert (Hr : forall i (q : dict), nth_error (repeat [] k) i = Some q -> q = []) by (intros i q E; apply nth_error_In, repeat_spec in E; auto).
  constructor; cbn; auto.
  - apply repeat_length.
  - intros i _. exists []. auto.
  - intros _. split; [|split; [|split]].
    + intros ts C N _. destruct ts as [|t ts]; [contradiction|]. inversion C as [|q ? qs ? Hq _ Eq]; subst. assert (q = []) as -> by (apply (repeat_spec k [] q); rewrite <- Eq; now left). destruct Hq.
    + apply Forall_forall. intros q Hq. apply repeat_spec in Hq as ->. constructor.
    + apply Forall_forall. intros q Hq. apply repeat_spec in Hq as ->. cbn. lia.
    + intros i q E. rewrite (Hr _ _ E). exists []. auto.
Qed.

Lemma max_size (q : dict) : Z.of_nat (length q) <= n -> Z.of_nat (length q) <= Z.max 0 n.
Proof. lia. Qed.
Lemma sound_step h rs s D o s' out ex : sound h rs s D -> add s o = Ok (s', out, ex) -> exists D', sound (h ++ [o]) (rs ++ [(out, ex)]) s' (D ++ D') /\ out = map (map snd) D'.
Proof.
  intros [A1 A2 A3 A4 A5 A6] E. destruct o as [i m hd now]. pose proof (Hadd _ _ _ _ _ _ _ _ E) as H. destruct (time_of hl hd now) as [t|] eqn:Ht.
  - destruct H as [Hl H]. destruct (A6 Hl) as (HC & HF & HB & HH). specialize (H HF HC). fold (holds h D (queues s)) in HH.
    assert (Hst : forall qs1, stores (queue_size s) i t m (queues s) qs1 -> length qs1 = k /\ Forall dictok qs1 /\ Forall (fun q => Z.of_nat (length q) <= Z.max 0 n) qs1 /\ holds (h ++ [Add i m hd now]) D qs1).
    { intros qs1 St. rewrite A1 in St. destruct (stores_facts _ _ _ _ _ _ St HF) as (F1 & HL & Hn & q & q' & d & Eq & Eq' & Ho & _ & Hq' & _).
      split; [congruence|]. split; auto. split; [|eapply holds_store; eauto]. apply Forall_forall. intros x Hx. apply In_nth_error in Hx as (j & Hj). destruct (Nat.eq_dec j i) as [->|N].
      - rewrite Eq' in Hj. injection Hj as <-. now apply max_size.
      - rewrite (Ho j N) in Hj. rewrite Forall_forall in HB. apply HB. eapply nth_error_In; eauto. }
    inversion H as [Hneg|qs1 St No|qs1 vv ms St C G Ev Eg Er|qs1 vv ms St C G Ev Eg Er]; subst s' out ex.
    + exists []. split; [|reflexivity]. rewrite app_nil_r. constructor; cbn [queue_size queues wedged with_queues locked]; auto.
      * rewrite upd_length. auto.
      * rewrite delivered_snoc, app_nil_r. auto.
      * intros j Hj. destruct (A5 j Hj) as (rest & P). exists (rest ++ arrival hl j (Add i m hd now)). rewrite arrived_snoc, P, app_assoc. auto.
      * discriminate.
    + destruct (Hst qs1 St) as (L1 & F1 & B1 & H1). exists []. split; [|reflexivity]. rewrite app_nil_r. constructor; cbn [queue_size queues wedged with_queues locked]; auto.
      * rewrite delivered_snoc, app_nil_r. auto.
      * intros j Hj. eapply holds_once; eauto. now rewrite L1.
      * intros _. split; [eapply calm_store; eauto|]. auto.
    + destruct (Hst qs1 St) as (L1 & F1 & B1 & H1). destruct (get_all_spec _ _ C F1) as (ms' & Eg' & Lms & _). rewrite Eg in Eg'. injection Eg' as <-.
      assert (Lv : length vv = length ms) by (rewrite (choice_length _ _ C); auto). pose proof (holds_deliver _ _ _ _ _ H1 F1 C Eg) as H2.
      exists [combine vv ms]. split; [|cbn; now rewrite combine_snd]. constructor; cbn [queue_size queues wedged with_queues locked]; auto.
      * now rewrite del_all_length.
      * rewrite delivered_snoc, map_app, A3. cbn. now rewrite combine_snd.
      * apply Forall_app. split; auto. constructor; auto. rewrite combine_fst by auto. split; auto. rewrite combine_length, (choice_length _ _ C). lia.
      * intros j Hj. eapply holds_once; eauto. rewrite del_all_length. now rewrite L1.
      * intros _. split; [eapply calm_deliver; eauto|]. split; [now apply del_all_ok|]. split; auto.
        apply Forall_forall. intros x Hx. apply In_nth_error in Hx as (j & Hj).
        assert (Hjl : (j < length qs1)%nat) by (rewrite <- (del_all_length qs1 vv); apply nth_error_Some; congruence).
        destruct (nth_error qs1 j) as [q|] eqn:Eq; [|apply nth_error_None in Eq; lia]. destruct (nth_error vv j) as [v|] eqn:Evj; [|apply nth_error_None in Evj; rewrite (choice_length _ _ C) in Evj; lia].
        rewrite (del_all_nth _ _ _ _ _ Eq Evj) in Hj. injection Hj as <-. apply choice_nth in C as [_ C]. pose proof (del_length v q (C j q v Eq Evj)) as Hd.
        rewrite Forall_forall in B1. specialize (B1 q (nth_error_In _ _ Eq)). lia.
    + destruct (Hst qs1 St) as (L1 & F1 & B1 & H1). destruct (get_all_spec _ _ C F1) as (ms' & Eg' & Lms & _). rewrite Eg in Eg'. injection Eg' as <-.
      assert (Lv : length vv = length ms) by (rewrite (choice_length _ _ C); auto). pose proof (holds_deliver _ _ _ _ _ H1 F1 C Eg) as H2.
      exists [combine vv ms]. split; [|cbn; now rewrite combine_snd]. constructor; cbn [queue_size queues wedged with_queues locked]; auto.
      * rewrite delivered_snoc, map_app, A3. cbn. now rewrite combine_snd.
      * apply Forall_app. split; auto. constructor; auto. rewrite combine_fst by auto. split; auto. rewrite combine_length, (choice_length _ _ C). lia.
      * intros j Hj. eapply holds_once; eauto. rewrite del_all_length. now rewrite L1.
      * discriminate.
  - destruct H as (-> & Hq & Hs & Hl & _). exists []. split; [|reflexivity]. rewrite app_nil_r.
    assert (Ha : forall j, arrived hl j (h ++ [Add i m hd now]) = arrived hl j h) by (intros j; rewrite arrived_snoc, (arrival_none _ _ _ _ _ _ Ht); apply app_nil_r).
    constructor; rewrite ?Hq; auto.
    + congruence.
    + now rewrite delivered_snoc, app_nil_r.
    + intros j Hj. rewrite Ha. auto.
    + intros Hl'. destruct (locked s) eqn:Els; [rewrite Hl in Hl'; auto; discriminate|]. destruct (A6 eq_refl) as (HC & HF & HB & HH). split; auto. split; auto. split; auto. intros j q. rewrite Ha. auto.
Qed.

Lemma run_sound h s rs : run add (pysync_init k n) h = Ok (s, rs) -> exists D, sound h rs s D.
Proof.
  revert s rs. induction h as [|o h IH] using rev_ind; intros s rs E.
  - cbn in E. injection E as <- <-. exists []. apply sound_init.
  - apply run_snoc in E as (s1 & rs1 & out & ex & E1 & E2 & ->). destruct (IH _ _ E1) as (D & HD). destruct (sound_step _ _ _ _ _ _ _ _ HD E2) as (D' & H & _). eauto.
Qed.

(** one call in a reachable state *)
Lemma run_step_kind h s rs i m hd now t s' out ex : run add (pysync_init k n) h = Ok (s, rs) -> add s (Add i m hd now) = Ok (s', out, ex) -> time_of hl hd now = Some t ->
  step_kind raises good s i t m (s', out, ex) /\ locked s = false /\ Forall dictok (queues s) /\ calm good (queues s) /\ queue_size s = n.
Proof.
  intros E Ea Ht. destruct (run_sound _ _ _ E) as (D & [A1 _ _ _ _ A6]). pose proof (Hadd _ _ _ _ _ _ _ _ Ea) as H. rewrite Ht in H. destruct H as [Hl H]. destruct (A6 Hl) as (HC & HF & _). auto.
Qed.
End Runs.
