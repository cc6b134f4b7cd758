(** Lemmas for C119. *)
From Coq Require Import List Arith ZArith Lia Bool Sorted Permutation.
From Verif Require Import Base RclTime Trace Seq_Model Seq_Spec Seq_Proofs SeqTime_Spec SeqTime_Proofs SeqLate_Spec.
Import ListNotations.
Local Open Scope Z_scope.

Section Proofs.
Context {E : Type} (stamp : E -> time).
Hypothesis Hsys : system_stamps stamp.
Notation t_ := (at_ns stamp).
Notation tops := (list (Z * op E)).

Lemma arrivals_app (a b : tops) : arrivals (a ++ b) = arrivals a ++ arrivals b.
Proof. unfold arrivals. apply flat_map_app. Qed.
Lemma arrivals_added (h : tops) : map snd (arrivals h) = added (calls h).
Proof. unfold arrivals, calls, added. induction h as [|[a [e|nows]] h IH]; cbn; congruence. Qed.
Lemma arrivals_in (h : tops) a e : In (a, e) (arrivals h) <-> In (a, Add e) h.
Proof.
  unfold arrivals. rewrite in_flat_map. split.
  - intros ([b [x|nows]] & H & Hx); cbn in Hx; [|tauto]. destruct Hx as [[= <- <-]|[]]. auto.
  - intros H. exists (a, Add e). split; auto. cbn. auto.
Qed.
(** time passes *)
Lemma timed_le (h : tops) : forall t T, timed t T h -> t <= T.
Proof. induction h as [|[a [e|nows]] h IH]; intros t T H; cbn in H; auto; [destruct H as [H1 H2]; apply IH in H2; lia|]. destruct H as (H1 & H2 & _ & b & H3 & H4). apply IH in H4. specialize (H3 0%nat). lia. Qed.
Lemma timed_bounds (h : tops) : forall t T a o, timed t T h -> In (a, o) h -> t <= a <= T.
Proof.
  induction h as [|[a [e|nows]] h IH]; intros t T a' o H Hin; cbn in H; [destruct Hin|..]; destruct Hin as [Hin|Hin]; try (injection Hin as <- <-).
  - destruct H as [H1 H2]. apply timed_le in H2. lia.
  - destruct H as [H1 H2]. destruct (IH _ _ _ _ H2 Hin). lia.
  - destruct H as (H1 & H2 & _ & b & H3 & H4). apply timed_le in H4. specialize (H3 0%nat). lia.
  - destruct H as (H1 & H2 & _ & b & H3 & H4). destruct (IH _ _ _ _ H4 Hin). specialize (H3 0%nat). lia.
Qed.
Lemma timed_app (h1 h2 : tops) : forall t T, timed t T (h1 ++ h2) -> exists b, timed t b h1 /\ timed b T h2.
Proof.
  induction h1 as [|[a [e|nows]] h1 IH]; intros t T H; cbn in H.
  - exists t. split; [cbn; lia|exact H].
  - destruct H as [H1 H2]. destruct (IH _ _ H2) as (b & B1 & B2). exists b. split; auto. cbn. auto.
  - destruct H as (H1 & H2 & H3 & c & H4 & H5). destruct (IH _ _ H5) as (b & B1 & B2). exists b. split; auto. cbn. eauto 8.
Qed.
Lemma timed_tick (h : tops) t T a nows k : timed t T h -> In (a, Tick nows) h -> nows 0%nat = a /\ monotone nows /\ nows k <= T.
Proof.
  intros H Hin. apply in_split in Hin as (h1 & h2 & ->). apply timed_app in H as (b & _ & H). cbn in H. destruct H as (_ & H2 & H3 & c & H4 & H5). apply timed_le in H5. specialize (H4 k). repeat split; auto. lia.
Qed.
(** what happens earlier is further to the left *)
Lemma earlier (h1 h2 : tops) t T a o b o' : timed t T (h1 ++ (b, o') :: h2) -> In (a, o) (h1 ++ (b, o') :: h2) -> a < b -> In (a, o) h1.
Proof.
  intros H Hin L. apply timed_app in H as (c & H1 & H2). apply in_app_or in Hin as [|[Hin|Hin]]; auto; exfalso; [injection Hin as -> _; lia|].
  assert (exists c', b <= c' /\ timed c' T h2) as (c' & Lc & H3). { destruct o' as [e|nows]; cbn in H2; [exists b; split; [lia|tauto]|]. destruct H2 as (_ & H2 & _ & c' & H3 & H4). exists c'. split; auto. specialize (H3 0%nat). lia. }
  destruct (timed_bounds _ _ _ _ _ H3 Hin). lia.
Qed.

(** promptness gives what C107 needs *)
Lemma prompt_in_time d (h : tops) t T : timed t T h -> prompt stamp d h -> in_time stamp d (calls h).
Proof.
  intros Ht P h1 e h2 Eq. unfold calls in Eq. apply map_eq_app in Eq as (g1 & g2 & -> & <- & E2). destruct g2 as [|[a o] g2]; [discriminate|]. cbn in E2. injection E2 as -> <-.
  destruct (P a e) as [P1 P2]; [apply arrivals_in, in_or_app; right; left; auto|]. split; [lia|]. intros nows k Hin. apply in_map_iff in Hin as ([b o] & Eb & Hin). cbn in Eb. subst o.
  apply timed_app in Ht as (c & H1 & H2). destruct (timed_tick _ _ _ _ _ k H1 Hin) as (_ & _ & L). cbn in H2. lia.
Qed.

(** what waits arrived lately *)
Lemma filter_subseq {A} (p : A -> bool) (l : list A) : subseq (filter p l) l.
Proof. induction l as [|x l IH]; cbn; [constructor|]. destruct (p x); now constructor. Qed.
Lemma waiting_app d (a b : list (op E)) : subseq (waiting stamp d (a ++ b)) (waiting stamp d a ++ added b).
Proof.
  revert a. induction b as [|o b IH] using rev_ind; intros a; [rewrite !app_nil_r; apply subseq_refl|]. rewrite app_assoc, waiting_snoc, added_snoc. destruct o as [e|nows]; cbn [wait_step].
  - rewrite app_assoc. apply subseq_app; auto. apply subseq_refl.
  - rewrite app_nil_r. eapply subseq_trans; [apply filter_subseq|]. auto.
Qed.
Lemma filter_mono {A} (p : A -> bool) (a b : list A) : subseq a b -> subseq (filter p a) (filter p b).
Proof. induction 1; cbn; [constructor|..]; destruct (p _); auto; now constructor. Qed.
Lemma filter_length_le {A} (p r : A -> bool) (l : list A) : (forall x, In x l -> p x = true -> r x = true) -> (length (filter p l) <= length (filter r l))%nat.
Proof.
  induction l as [|x l IH]; intros H; cbn; auto. specialize (IH (fun y Hy => H y (or_intror Hy))). destruct (p x) eqn:Ep; [rewrite (H x (or_introl eq_refl) Ep); cbn; lia|]. destruct (r x); cbn; lia.
Qed.
Lemma waits_lately d u q (h : tops) t0 T : 0 <= d -> 0 <= u -> timed t0 T h -> ticking t0 T u h -> prompt stamp d h -> rate q (d + u) h -> queue_suffices stamp q d (calls h).
Proof.
  intros Hd Hu Ht Htick P R. right. split.
  { intros nows Hin. apply in_map_iff in Hin as ([a o] & Eo & Hin). cbn in Eo. subst o. eapply (timed_tick _ _ _ _ _ 0%nat); eauto. }
  intros g1 g2 Eq. unfold calls in Eq. apply map_eq_app in Eq as (h1 & h2 & -> & <- & _). fold (calls h1).
  destruct h1 as [|[a o] h1 _] using rev_ind; [cbn; lia|].
  (* a tick shortly before [a], or none *)
  assert (exists l r, h1 ++ [(a, o)] = l ++ r /\ (forall b e, In (b, e) (arrivals r) -> a - u <= b) /\ (l = [] \/ exists l' b nows, l = l' ++ [(b, Tick nows)] /\ a - u <= b)) as (l & r & Elr & Hr & Hl).
  { destruct (Z.le_gt_cases t0 (a - u - 1)) as [Le|Gt].
    - assert (In (a, o) ((h1 ++ [(a, o)]) ++ h2)) as Ia by (apply in_or_app; left; apply in_or_app; right; left; auto).
      pose proof (timed_bounds _ _ _ _ _ Ht Ia) as Ba. destruct (Htick (a - u - 1)) as (b & nows & Hin & Lb); [lia|lia|].
      rewrite <- app_assoc in Hin, Ht. cbn in Hin, Ht. apply (earlier h1 h2 t0 T b (Tick nows) a o Ht) in Hin; [|lia].
      apply in_split in Hin as (l' & r' & ->). exists (l' ++ [(b, Tick nows)]), (r' ++ [(a, o)]). split; [now rewrite <- !app_assoc|]. split.
      + intros c e Hc. apply arrivals_in in Hc. rewrite <- !app_assoc in Ht. apply timed_app in Ht as (x & _ & Ht). cbn in Ht. destruct Ht as (_ & T2 & _ & y & T3 & T4).
        assert (In (c, Add e) (r' ++ (a, o) :: h2)) as Hc' by (apply in_app_or in Hc as [Hc|[Hc|[]]]; apply in_or_app; [auto|right; left; auto]).
        destruct (timed_bounds _ _ _ _ _ T4 Hc'). specialize (T3 0%nat). lia.
      + right. exists l', b, nows. split; auto. lia.
    - exists [], (h1 ++ [(a, o)]). split; auto. split; auto. intros b e Hb. apply arrivals_in in Hb. apply timed_app in Ht as (x & Ht & _). destruct (timed_bounds _ _ _ _ _ Ht Hb). lia. }
  assert (forall b x, In (b, x) (l ++ r) -> b <= a) as La.
  { intros b x Hb. rewrite <- Elr in Hb. apply timed_app in Ht as (y & Ht & _). apply timed_app in Ht as (z & T1 & T2). assert (a <= y) as Ty by (apply timed_le in T2 as T3; destruct o; cbn in T2; [tauto|]; destruct T2 as (_ & T4 & _ & c & T5 & T6); specialize (T5 0%nat); lia).
    apply in_app_or in Hb as [Hb|[Hb|[]]]; [|injection Hb as -> _; lia]. destruct (timed_bounds _ _ _ _ _ T1 Hb). destruct o; cbn in T2; lia. }
  specialize (R (a - (d + u))). replace (a - (d + u) + (d + u)) with a in R by lia. rewrite Elr in *. etransitivity; [|exact R]. rewrite !arrivals_app, !filter_app, !app_length.
  assert (length (filter (fun p => (a - (d + u) <=? fst p) && (fst p <=? a)) (arrivals r)) = length (arrivals r)) as Lr.
  { f_equal. apply filter_all. intros [b e] Hb. cbn. specialize (Hr _ _ Hb). assert (b <= a) by (apply (La b (Add e)), in_or_app; right; now apply arrivals_in).
    apply andb_true_intro. split; apply Z.leb_le; lia. }
  rewrite Lr. unfold calls. rewrite map_app. fold (calls l) (calls r). pose proof (subseq_length _ _ (waiting_app d (calls l) (calls r))) as W. rewrite app_length in W.
  assert (length (added (calls r)) = length (arrivals r)) as Lar by (now rewrite <- arrivals_added, map_length). rewrite Lar in W.
  destruct Hl as [->|(l' & b & nows & -> & Lb)]; [cbn in W |- *; lia|].
  assert ((length (waiting stamp d (calls (l' ++ [(b, Tick nows)]))) <= length (filter (fun p => (a - (d + u) <=? fst p)%Z && (fst p <=? a)%Z) (arrivals (l' ++ [(b, Tick nows)]))))%nat) as Wl; [|lia].
  assert (nows 0%nat = b) as Nb by (eapply (timed_tick _ _ _ _ _ 0%nat Ht); apply in_or_app; left; apply in_or_app; left; apply in_or_app; right; left; auto).
  unfold calls. rewrite map_app. cbn [map snd]. rewrite waiting_snoc. cbn [wait_step]. rewrite Nb.
  pose proof (subseq_length _ _ (filter_mono (fun e => b <? t_ e + d) _ _ (waiting_app d [] (calls l')))) as W2. cbn [app] in W2. change (waiting stamp d []) with (@nil E) in W2. cbn [app] in W2. etransitivity; [exact W2|].
  rewrite <- arrivals_added. rewrite arrivals_app. cbn. rewrite app_nil_r.
  assert (forall (p : E -> bool) (x : list (Z * E)), length (filter p (map snd x)) = length (filter (fun y => p (snd y)) x)) as Fm by (intros p x; induction x as [|y x IH]; cbn; auto; destruct (p (snd y)); cbn; congruence).
  rewrite Fm. apply filter_length_le. intros [c e] Hc Hp. cbn in *. apply Z.ltb_lt in Hp.
  assert (In (c, e) (arrivals (((l' ++ [(b, Tick nows)]) ++ r) ++ h2))) as Hc' by (apply arrivals_in; apply arrivals_in in Hc; apply in_or_app; left; apply in_or_app; left; apply in_or_app; left; auto).
  destruct (P _ _ Hc') as [P1 P2]. assert (c <= a) by (apply (La c (Add e)), in_or_app; left; apply in_or_app; left; now apply arrivals_in). apply andb_true_intro. split; apply Z.leb_le; lia.
Qed.
End Proofs.
