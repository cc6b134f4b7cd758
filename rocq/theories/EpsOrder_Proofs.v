From Coq Require Import List Arith ZArith Lia Bool Sorted Permutation.
From Verif Require Import Base RclTime Trace Eps_Model Eps_Spec Eps_Proofs EpsOrder_Spec.
Import ListNotations.
Local Open Scope Z_scope.

Section Proofs.
Context {E : Type} (stamp : E -> Z).
Variable n : nat.
Variable q : nat.
Variable eps : Z.
Hypothesis Hmax : forall e, stamp e <= int64_max.
Hypothesis Heps : 0 <= eps.

Notation add := (add stamp n q eps).
Notation run := (run stamp n q eps).
Notation state := (state E).
Notation read := (read stamp eps).
Notation read_all := (read_all stamp eps).

(** ** reading *)
Lemma first_of_inj (qs : list (list E)) a b : first_of qs a -> first_of qs b -> a = b.
Proof.
  unfold first_of. intros H1 H2. rewrite H1 in H2. clear H1.
  revert b H2; induction a as [|x a IH]; intros [|y b] H; cbn in *; try discriminate; auto.
  injection H as -> H. f_equal. auto.
Qed.

Lemma first_of_no_empty (qs : list (list E)) heads : first_of qs heads -> ~ In [] qs.
Proof.
  unfold first_of. revert heads; induction qs as [|v qs IH]; intros [|x hs] H Hin; cbn in *; try discriminate; auto.
  injection H as H1 H2. destruct Hin as [->|Hin]; [discriminate|]. eapply IH; eauto.
Qed.

Lemma read_trans a o1 b o2 c : read a o1 b -> read b o2 c -> read a (o1 ++ o2) c.
Proof.
  induction 1; intros H'; cbn; auto.
  - econstructor 2; eauto.
  - econstructor 3; eauto.
Qed.

Lemma read_all_det qs o1 r1 o2 r2 : read_all qs o1 r1 -> read_all qs o2 r2 -> o1 = o2 /\ r1 = r2.
Proof.
  intros [H1 E1] [H2 E2]. revert o2 r2 H2 E2. induction H1 as [qs|qs hs outs rest Hf Hfit H1 IH|qs hs m outs rest Hf Hfit Hm Hmin H1 IH];
    intros o2 r2 H2 E2.
  - inversion H2; subst; auto; exfalso; eapply first_of_no_empty; eauto.
  - inversion H2; subst.
    + exfalso; eapply first_of_no_empty; eauto.
    + rewrite (first_of_inj _ _ _ H Hf). edestruct IH as [-> ->]; eauto.
    + rewrite (first_of_inj _ _ _ H Hf) in *. contradiction.
  - inversion H2; subst.
    + exfalso; eapply first_of_no_empty; eauto.
    + rewrite (first_of_inj _ _ _ H Hf) in *. contradiction.
    + rewrite (first_of_inj _ _ _ H Hf) in *.
      assert (stamp oldest = stamp m) as Es by (match goal with A : In oldest _, B : forall x, In x _ -> stamp oldest <= _ |- _ => specialize (B _ Hm); specialize (Hmin _ A); lia end).
      rewrite Es in *. edestruct IH as [-> ->]; eauto.
Qed.

(** more messages at the ends *)
Definition more (qs xs : list (list E)) : list (list E) := map (fun p => fst p ++ snd p) (combine qs xs).

Lemma first_of_more (qs xs : list (list E)) heads : length xs = length qs -> first_of qs heads -> first_of (more qs xs) heads.
Proof.
  unfold first_of, more. revert xs heads; induction qs as [|v qs IH]; intros [|x xs] [|y hs] HL H; cbn in *; try discriminate; auto.
  injection H as H1 H2. destruct v as [|a v]; [discriminate|]. cbn in *. f_equal; auto.
Qed.

Lemma more_map (f : list E -> list E) (qs xs : list (list E)) :
  (forall v x, In v qs -> f (v ++ x) = f v ++ x) -> more (map f qs) xs = map f (more qs xs).
Proof.
  unfold more. revert xs; induction qs as [|v qs IH]; intros [|x xs] H; cbn in *; auto.
  rewrite H by auto. f_equal. apply IH. auto.
Qed.

Lemma in_first_of (qs : list (list E)) heads v : first_of qs heads -> In v qs -> v <> [].
Proof. intros H Hin ->. eapply first_of_no_empty; eauto. Qed.

Lemma read_more qs outs rest xs : length xs = length qs -> read qs outs rest -> read (more qs xs) outs (more rest xs).
Proof.
  intros HL H. revert HL. induction H as [qs|qs hs outs rest Hf Hfit H1 IH|qs hs m outs rest Hf Hfit Hm Hmin H1 IH]; intros HL.
  - constructor.
  - econstructor 2; eauto using first_of_more. rewrite <- more_map.
    + apply IH. now rewrite map_length.
    + intros v x Hv. pose proof (in_first_of _ _ _ Hf Hv). destruct v; [congruence|reflexivity].
  - econstructor 3; eauto using first_of_more. rewrite <- more_map.
    + apply IH. now rewrite map_length.
    + intros v x Hv. pose proof (in_first_of _ _ _ Hf Hv). destruct v as [|a v]; [congruence|].
      cbn. destruct (stamp a <=? _); reflexivity.
Qed.

Lemma read_length qs outs rest : read qs outs rest -> length rest = length qs.
Proof. induction 1; auto; rewrite map_length in IHread; auto. Qed.

(** reading some more messages gives the same sets first *)
Lemma read_all_more qs outs rest xs outs' rest' :
  length xs = length qs -> read_all qs outs rest -> read_all (more qs xs) outs' rest' -> prefix outs outs'.
Proof.
  intros HL [H _] [H' E']. pose proof (read_more _ _ _ _ HL H) as Hm. clear H. revert Hm.
  generalize (more qs xs) (more rest xs) H'. intros a b Ha Hm. clear HL H' xs qs rest. revert rest' outs' Ha E'.
  induction Hm as [qs|qs hs outs rest Hf Hfit H1 IH|qs hs m outs rest Hf Hfit Hm' Hmin H1 IH]; intros r o Ha Er.
  - now exists o.
  - inversion Ha; subst.
    + exfalso; eapply first_of_no_empty; eauto.
    + rewrite (first_of_inj _ _ _ H Hf). destruct (IH _ _ H2 Er) as [c ->]. now exists c.
    + rewrite (first_of_inj _ _ _ H Hf) in *. contradiction.
  - inversion Ha; subst.
    + exfalso; eapply first_of_no_empty; eauto.
    + rewrite (first_of_inj _ _ _ H Hf) in *. contradiction.
    + rewrite (first_of_inj _ _ _ H Hf) in *.
      assert (stamp oldest = stamp m) as Es by (match goal with A : In oldest _, B : forall x, In x _ -> stamp oldest <= _ |- _ => specialize (B _ Hm'); specialize (Hmin _ A); lia end).
      rewrite Es in *. eauto.
Qed.

(** ** the model reads *)
Lemma first_of_nth (qs : list (list E)) heads :
  length heads = length qs ->
  (forall j v, nth_error qs j = Some v -> exists e t, v = e :: t /\ nth_error heads j = Some e) -> first_of qs heads.
Proof.
  intros HL H. apply nth_error_ext_eq. intros j. rewrite !nth_error_map.
  destruct (nth_error qs j) as [v|] eqn:Ev.
  - destruct (H j v Ev) as (e & t & -> & ->). reflexivity.
  - apply nth_error_None in Ev. rewrite (proj2 (nth_error_None heads j)) by lia. reflexivity.
Qed.

Lemma heads_exist (qs : list (list E)) : ~ In [] qs -> exists heads, first_of qs heads.
Proof.
  induction qs as [|v qs IH]; intros H; [now exists []|].
  destruct v as [|x v]; [exfalso; apply H; cbn; auto|]. destruct IH as (hs & Hs); [intros Hin; apply H; cbn; auto|].
  exists (x :: hs). unfold first_of in *. cbn. now rewrite Hs.
Qed.

Lemma first_of_in (qs : list (list E)) heads x : first_of qs heads ->
  (In x heads <-> exists v, In v qs /\ hd_error v = Some x).
Proof.
  unfold first_of. intros H. split.
  - intros Hx. assert (In (Some x) (map (@hd_error E) qs)) as Hs by (rewrite H; now apply in_map).
    apply in_map_iff in Hs as (v & H1 & H2). eauto.
  - intros (v & Hv & Hx). assert (In (Some x) (map Some heads)) as Hs by (rewrite <- H, <- Hx; now apply in_map).
    apply in_map_iff in Hs as (y & [= ->] & Hy). auto.
Qed.

Lemma map_ext_list {A B} (f g : A -> B) l : (forall x, f x = g x) -> map f l = map g l.
Proof. intros H. apply map_ext. auto. Qed.

Lemma iter_read s s' o : Inv n s -> count s = n -> iter stamp n eps s s' o -> read (events s) o (events s').
Proof.
  intros HI Hc H. pose proof (Inv_full n s HI Hc) as Hne. destruct HI as [HL _]. inversion H; subst.
  - econstructor 2; eauto.
    + apply first_of_nth; auto; lia.
    + cbn [erase_all events]. rewrite (map_ext_list (fun v => fst (erase_beginning v)) (@tl E)); [constructor|]. apply erase_beginning_fst.
  - destruct (heads_exist (events s)) as (hs & Hs). { intros Hin. now apply (Hne []). }
    destruct H1 as (v & e & Hv & He & Hm). destruct H2 as (w & x & Hw & Hx & Hmx).
    assert (In e hs) as Ie by (eapply first_of_in; eauto). assert (In x hs) as Ix by (eapply first_of_in; eauto).
    econstructor 3 with (oldest := e); eauto.
    + intros HF. specialize (HF x e Ix Ie). lia.
    + intros y Hy. eapply first_of_in in Hy as (u & Hu & Hy); eauto. rewrite Hm. eauto.
    + cbn [erase_all events]. rewrite (map_ext_list (fun v => fst (erase_if_on_sync stamp eps m v)) (discard stamp (stamp e + eps))); [constructor|].
      intros u. rewrite erase_if_fst, Hm. unfold discard. destruct u as [|a u]; auto.
      destruct (Z.ltb_spec (m + eps) (stamp a)), (Z.leb_spec (stamp a) (m + eps)); auto; lia.
Qed.

(** one message at the end of stream [i] *)
Definition one (i : nat) (e : E) : list (list E) := map (fun j => if Nat.eqb j i then [e] else []) (seq 0 n).

Lemma nth_error_seq a m i : (i < m)%nat -> nth_error (seq a m) i = Some (a + i)%nat.
Proof.
  revert a i; induction m as [|m IH]; intros a [|i] Hi; cbn; try lia.
  - f_equal; lia.
  - rewrite IH by lia. f_equal; lia.
Qed.

Lemma nth_map_seq {A} (f : nat -> A) i d : (i < n)%nat -> nth i (map f (seq 0 n)) d = f i.
Proof.
  intros Hi. apply nth_error_nth. rewrite nth_error_map, nth_error_seq by auto. reflexivity.
Qed.

Lemma more_at qs xs j : length qs = n -> length xs = n -> at_ j (more qs xs) = at_ j qs ++ at_ j xs.
Proof.
  intros HL HL'. unfold more, at_. destruct (lt_dec j n) as [Hj|Hj].
  - erewrite nth_error_nth. 2:{ rewrite nth_error_map. erewrite nth_error_nth' with (d := ([], [])); [reflexivity|]. rewrite combine_length. lia. }
    rewrite combine_nth by lia. reflexivity.
  - rewrite !nth_overflow; auto; try lia. rewrite map_length, combine_length. lia.
Qed.

Lemma streams_snoc h i e : streams n (h ++ [(i, e)]) = more (streams n h) (one i e).
Proof.
  apply (list_eq_nth []).
  - unfold more, streams, one. rewrite !map_length, combine_length, !map_length, seq_length. lia.
  - unfold streams at 1. rewrite map_length, seq_length. intros j Hj.
    change (nth j (more (streams n h) (one i e)) []) with (at_ j (more (streams n h) (one i e))). rewrite more_at.
    + unfold at_, streams, one. rewrite !nth_map_seq by auto. apply stream_snoc.
    + unfold streams. now rewrite map_length, seq_length.
    + unfold one. now rewrite map_length, seq_length.
Qed.

Lemma pushed_more s i e : (i < n)%nat -> Inv n s -> events (pushed s i e) = more (events s) (one i e).
Proof.
  intros Hi HI. pose proof (pushed_inv n s i e Hi HI) as [HL1 _]. pose proof HI as [HL _].
  assert (length (one i e) = n) as HO by (unfold one; now rewrite map_length, seq_length).
  apply (list_eq_nth []).
  - unfold more. rewrite map_length, combine_length. lia.
  - intros j Hj. change (at_ j (events (pushed s i e)) = at_ j (more (events s) (one i e))).
    rewrite more_at, (pushed_at n) by auto. f_equal. unfold at_, one. rewrite nth_map_seq by lia. reflexivity.
Qed.

Lemma streams_nil : @streams E n [] = repeat (@nil E) n.
Proof.
  unfold streams, stream. cbn. generalize 0%nat. induction n as [|m IH]; intros a; cbn; auto. f_equal. auto.
Qed.

Lemma not_full_empty (s : state) : Inv n s -> count s <> n -> In [] (events s).
Proof.
  intros [HL HC] H. destruct (cnt_empty (events s)) as (i & Hi & He); [congruence|].
  rewrite <- He. now apply nth_In.
Qed.

Lemma run_read h :
  (0 < n)%nat -> well_indexed n h -> queue_suffices stamp n q eps h ->
  exists s outs, run (init n) h = Ok (s, outs) /\ Inv n s /\ count s <> n /\ read_all (streams n h) outs (events s).
Proof.
  intros Hn HW HQ.
  destruct (run_ind stamp n q eps
    (fun h s outs => queue_suffices stamp n q eps h -> read_all (streams n h) outs (events s)) Hn) with (h := h)
    as (s & outs & Hr & HI & Hc & HP); auto; [| |exists s, outs; auto].
  - intros _. rewrite streams_nil. split; [constructor|]. cbn. destruct n; [lia|]. cbn; auto.
  - clear h HW HQ. intros h s outs i e Hi HI Hc HP.
    destruct (add_cases stamp n q eps s i e Hi HI) as [(H1 & H2)|[(H1 & H2 & H3)|(H1 & H2 & s2 & H3 & H4 & H5 & H6)]].
    + destruct (process_ind stamp n eps Hmax Heps (fun s' o => read (events (pushed s i e)) o (events s')) ltac:(lia))
        with (fuel := S (total (pushed s i e))) (s := pushed s i e) (outs := @nil (list E)) as (s' & o & Hp & HP' & HI' & Hc'); auto.
      * intros a b o outs' Ha HIa Hca Hit _. eapply read_trans; eauto. now apply iter_read.
      * now apply pushed_inv.
      * constructor.
      * exists s', o. rewrite H2. split; auto. split; auto. split; auto. intros HQ. split; [|now apply not_full_empty].
        destruct HP as [HP _]. { intros h1 h2 o1 r v Eh. apply HQ with (h2 := h2 ++ [(i, e)]). now rewrite Eh, app_assoc. }
        eapply read_trans; [|exact HP']. rewrite streams_snoc, pushed_more by auto. apply read_more; auto.
        unfold one, streams. now rewrite !map_length.
    + exists (pushed s i e), []. split; auto. split; [now apply pushed_inv|]. split; auto. intros HQ. rewrite app_nil_r.
      split; [|apply not_full_empty; auto; now apply pushed_inv].
      destruct HP as [HP _]. { intros h1 h2 o1 r v Eh. apply HQ with (h2 := h2 ++ [(i, e)]). now rewrite Eh, app_assoc. }
      rewrite streams_snoc, pushed_more by auto. apply read_more; auto. unfold one, streams. now rewrite !map_length.
    + exists s2, []. split; auto. split; auto.
      assert (count s2 <> n) as Hc2.
      { destruct (pushed_inv n s i e Hi HI) as [HL HC]. pose proof (cnt_le (events (pushed s i e))). lia. }
      split; auto. intros HQ. exfalso.
      assert (read_all (streams n (h ++ [(i, e)])) outs (events (pushed s i e))) as HR.
      { split; [|apply not_full_empty; auto; now apply pushed_inv].
        destruct HP as [HP _]. { intros h1 h2 o1 r v Eh. apply HQ with (h2 := h2 ++ [(i, e)]). now rewrite Eh, app_assoc. }
        rewrite streams_snoc, pushed_more by auto. apply read_more; auto. unfold one, streams. now rewrite !map_length. }
      specialize (HQ (h ++ [(i, e)]) [] outs (events (pushed s i e)) (at_ i (events (pushed s i e)))).
      rewrite app_nil_r in HQ. specialize (HQ eq_refl HR). apply Nat.lt_nge in H2. apply H2, HQ.
      apply at_in. destruct (pushed_inv n s i e Hi HI). lia.
Qed.
End Proofs.
