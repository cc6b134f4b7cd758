From Coq Require Import List Arith ZArith Lia Bool Sorted Permutation.
From Verif Require Import Base RclTime Trace PermTac Eps_Model Eps_Spec.
Import ListNotations.
Local Open Scope Z_scope.

Section Proofs.
Context {E : Type} (stamp : E -> Z).
Variable n : nat.
Variable q : nat.
Variable eps : Z.

Notation add := (add stamp n q eps).
Notation run := (run stamp n q eps).
Notation process := (process stamp n eps).
Notation state := (state E).
Notation erase_if := (erase_if_on_sync stamp eps).

Definition ne (v : list E) : nat := match v with [] => 0 | _ => 1 end.
Fixpoint cnt (vs : list (list E)) : nat := match vs with [] => 0 | v :: vs => ne v + cnt vs end.

Lemma cnt_le vs : (cnt vs <= length vs)%nat.
Proof. induction vs as [|[|x v] vs IH]; cbn in *; lia. Qed.

Lemma cnt_full vs : cnt vs = length vs <-> (forall v, In v vs -> v <> []).
Proof.
  induction vs as [|v vs IH]; cbn.
  - split; [intros _ v []|auto].
  - pose proof (cnt_le vs) as Hle. destruct v as [|x v]; cbn.
    + split; [lia|]. intros H. exfalso. apply (H []); auto.
    + split.
      * intros H w [<-|Hw]; [discriminate|]. apply IH; auto.
      * intros H. f_equal. apply IH. intros w Hw. apply H; auto.
Qed.

Lemma cnt_empty vs : cnt vs <> length vs -> exists i, (i < length vs)%nat /\ nth i vs [] = [].
Proof.
  induction vs as [|v vs IH]; cbn; [congruence|]. destruct v as [|x v]; cbn; intros H.
  - exists 0%nat. split; [lia|reflexivity].
  - destruct IH as (i & Hi & He); [congruence|]. exists (S i). split; [lia|exact He].
Qed.

Lemma cnt_upd vs i v w :
  nth_error vs i = Some v -> (cnt (upd i w vs) + ne v = cnt vs + ne w)%nat.
Proof.
  revert i; induction vs as [|x vs IH]; intros [|i] H; cbn in *; try congruence.
  - injection H as ->. lia.
  - apply IH in H. lia.
Qed.

Definition good_eraser (f : list E -> list E * nat) :=
  forall v, (ne (fst (f v)) + snd (f v) = ne v)%nat /\ (fst (f v) = v \/ fst (f v) = tl v).

Lemma erase_beginning_good : good_eraser erase_beginning.
Proof. intros [|x [|y v]]; cbn; auto. Qed.
Lemma erase_beginning_fst (v : list E) : fst (erase_beginning v) = tl v.
Proof. destruct v as [|x [|y v]]; reflexivity. Qed.
Lemma erase_if_good ts : good_eraser (erase_if ts).
Proof.
  intros [|x v]; cbn; auto. destruct (ts + eps <? stamp x); cbn; auto.
  pose proof (erase_beginning_good (x :: v)) as H. cbn in H. exact H.
Qed.
Lemma erase_if_fst ts (v : list E) :
  fst (erase_if ts v) = match v with [] => [] | e :: t => if ts + eps <? stamp e then v else t end.
Proof.
  destruct v as [|e t]; cbn; auto. destruct (ts + eps <? stamp e); auto. destruct t; reflexivity.
Qed.

Lemma cnt_erase f vs : good_eraser f ->
  (cnt (map (fun v => fst (f v)) vs) + list_sum (map (fun v => snd (f v)) vs) = cnt vs)%nat.
Proof.
  intros Hf. induction vs as [|v vs IH]; cbn; auto. destruct (Hf v) as [H _]. unfold list_sum in *. lia.
Qed.

Definition Inv (s : state) : Prop := length (events s) = n /\ count s = cnt (events s).

Lemma erase_all_inv f s : good_eraser f -> Inv s -> Inv (erase_all f s).
Proof.
  intros Hf [HL HC]. split; cbn.
  - now rewrite map_length.
  - pose proof (cnt_erase f (events s) Hf). lia.
Qed.

Lemma Inv_full s : Inv s -> count s = n -> forall v, In v (events s) -> v <> [].
Proof. intros [HL HC] H. apply cnt_full. lia. Qed.

(** ** oldest front *)
Lemma older_from_spec vs is cur :
  let r := older_from stamp is vs cur in
  fst r <= fst cur /\
  (forall v e, In v vs -> hd_error v = Some e -> fst r <= stamp e) /\
  ((r = cur) \/ (exists j v e, snd r = Some (is + j)%nat /\ nth_error vs j = Some v /\ hd_error v = Some e /\ stamp e = fst r)).
Proof.
  revert is cur; induction vs as [|v vs IH]; intros is cur; cbn.
  - split; [lia|]. split; [intros v e []|auto].
  - destruct (IH (S is) (older_between stamp cur is v)) as (H1 & H2 & H3). clear IH.
    set (r := older_from stamp (S is) vs (older_between stamp cur is v)) in *.
    assert (Hb : fst (older_between stamp cur is v) <= fst cur /\
                 (forall e, hd_error v = Some e -> fst (older_between stamp cur is v) <= stamp e) /\
                 (older_between stamp cur is v = cur \/ exists e, older_between stamp cur is v = (stamp e, Some is) /\ hd_error v = Some e)).
    { destruct v as [|e v]; cbn; [split; [lia|split; [discriminate|auto]]|].
      destruct (Z.ltb_spec (stamp e) (fst cur)); cbn.
      - split; [lia|]. split; [intros x [= <-]; lia|]. right; eauto.
      - split; [lia|]. split; [intros x [= <-]; lia|]. auto. }
    destruct Hb as (B1 & B2 & B3). split; [|split].
    + lia.
    + intros w e [<-|Hw] He; [apply B2 in He; lia|eauto].
    + destruct H3 as [H3|(j & w & e & Hj & Hw & He & Hs)].
      * destruct B3 as [B3|(e & B3 & He)]; [left; congruence|]. right.
        exists 0%nat, v, e. rewrite H3, B3. cbn. rewrite Nat.add_0_r. auto.
      * right. exists (S j), w, e. rewrite Hj. repeat split; auto. f_equal. lia.
Qed.

Hypothesis Hmax : forall e, stamp e <= int64_max.

(** the oldest front stamp is the minimum of the fronts, attained *)
Lemma older_min s :
  (0 < n)%nat -> Inv s -> count s = n ->
  exists m, fst (get_older_timestamp stamp s) = m /\
    (forall v e, In v (events s) -> hd_error v = Some e -> m <= stamp e) /\
    (exists v e, In v (events s) /\ hd_error v = Some e /\ stamp e = m).
Proof.
  intros Hn HI Hc. unfold get_older_timestamp.
  destruct (older_from_spec (events s) 0 (int64_max, None)) as (H1 & H2 & H3). cbv zeta in *.
  set (r := older_from stamp 0 (events s) (int64_max, None)) in *.
  exists (fst r). split; auto. split; auto.
  destruct H3 as [H3|(j & v & e & _ & Hv & He & Hs)].
  - destruct HI as [HL HC]. destruct (events s) as [|v vs] eqn:Hev; [cbn in HL; lia|].
    assert (v <> []). { apply (Inv_full s); auto. { split; auto. now rewrite Hev. now rewrite Hev. } rewrite Hev; cbn; auto. }
    destruct v as [|e v]; [congruence|]. exists (e :: v), e. split; [cbn; auto|]. split; auto.
    specialize (H2 (e :: v) e (or_introl eq_refl) eq_refl). rewrite H3 in *. cbn in *. specialize (Hmax e). lia.
  - exists v, e. split; auto. now apply nth_error_In in Hv.
Qed.

(** ** a negative epsilon: the loop changes nothing, forever *)
Lemma process_negative fuel s outs :
  eps < 0 -> (2 <= n)%nat -> Inv s -> count s = n -> process fuel s outs = Err OutOfFuel.
Proof.
  intros Hneg Hn HI Hc. revert outs. induction fuel as [|fuel IH]; intros outs; cbn [Eps_Model.process];
    rewrite Hc, Nat.eqb_refl; auto.
  pose proof (Inv_full s HI Hc) as Hne.
  destruct (older_min s ltac:(lia) HI Hc) as (m & Hm & Hmin & _).
  assert (Hw : all_within_from stamp eps (get_older_timestamp stamp s) 0 (events s) = false).
  { set (r := get_older_timestamp stamp s) in *.
    destruct HI as [HL _]. destruct (events s) as [|v [|w vs]]; cbn in HL; try lia. clear IH.
    assert (Hf : forall is u, In u (v :: w :: vs) -> snd r <> Some is -> within stamp eps r is u = false).
    { intros is u Hu Hs. unfold within. destruct u as [|e u]; [exfalso; apply (Hne []); auto|].
      specialize (Hmin _ e Hu eq_refl).
      destruct (Z.leb_spec (stamp e) (fst r + eps)); [lia|]. rewrite orb_false_r.
      destruct (snd r) as [k|]; auto. apply Nat.eqb_neq. congruence. }
    cbn [all_within_from].
    destruct (snd r) as [k|] eqn:Hs.
    - destruct (Nat.eq_dec k 0) as [->|Hk].
      + rewrite (Hf 1%nat w); [|cbn; auto|congruence]. cbn. now rewrite andb_false_r.
      + rewrite (Hf 0%nat v); [auto|cbn; auto|congruence].
    - rewrite (Hf 0%nat v); [auto|cbn; auto|congruence]. }
  rewrite Hw, Hm.
  replace (erase_all (erase_if m) s) with s; [apply IH|].
  destruct s as [c vs]. unfold erase_all. cbn [events count] in *.
  assert (Hid : forall v, In v vs -> erase_if m v = (v, 0%nat)).
  { intros v Hv. destruct v as [|e v]; auto. cbn. specialize (Hmin _ e Hv eq_refl).
    destruct (Z.ltb_spec (m + eps) (stamp e)); auto; lia. }
  f_equal.
  - assert (list_sum (map (fun v => snd (erase_if m v)) vs) = 0%nat); [|lia].
    clear -Hid. induction vs as [|v vs IH]; auto. cbn. rewrite Hid by (cbn; auto). cbn. apply IH. intros; apply Hid; cbn; auto.
  - clear -Hid. induction vs as [|v vs IH]; auto. cbn. rewrite Hid by (cbn; auto). cbn. f_equal. apply IH. intros; apply Hid; cbn; auto.
Qed.

Hypothesis Heps : 0 <= eps.

Lemma all_within_from_spec s :
  (0 < n)%nat -> Inv s -> count s = n ->
  all_within_from stamp eps (get_older_timestamp stamp s) 0 (events s) = true <->
  (forall v e, In v (events s) -> hd_error v = Some e -> stamp e <= fst (get_older_timestamp stamp s) + eps).
Proof.
  intros Hn HI Hc.
  destruct (older_from_spec (events s) 0 (int64_max, None)) as (_ & H2 & H3). cbv zeta in *.
  fold (get_older_timestamp stamp s) in *. set (r := get_older_timestamp stamp s) in *.
  pose proof (Inv_full s HI Hc) as Hne.
  assert (Hidx : forall j v e, snd r = Some j -> nth_error (events s) j = Some v -> hd_error v = Some e -> stamp e <= fst r + eps).
  { intros j v e Hj Hv He. destruct H3 as [H3|(j' & w & x & Hj' & Hw & Hx & Hs)].
    - rewrite H3 in Hj. discriminate.
    - rewrite Hj in Hj'. injection Hj' as ->. cbn in Hv. rewrite Hv in Hw. injection Hw as ->.
      rewrite He in Hx. injection Hx as ->. lia. }
  assert (Hgen : forall is vs, (forall k v, nth_error vs k = Some v -> nth_error (events s) (is + k) = Some v) ->
     all_within_from stamp eps r is vs = true <->
     (forall v e, In v vs -> hd_error v = Some e -> stamp e <= fst r + eps)).
  { intros is vs; revert is; induction vs as [|v vs IH]; intros is Hin; cbn.
    - split; auto. intros _ v e [].
    - rewrite andb_true_iff, IH.
      2:{ intros k w Hk. specialize (Hin (S k) w Hk). now rewrite Nat.add_succ_r in Hin. }
      assert (Hv : nth_error (events s) is = Some v) by (rewrite <- (Nat.add_0_r is); apply Hin; reflexivity).
      assert (Hvne : v <> []) by (apply Hne; now apply nth_error_In in Hv).
      destruct v as [|e v]; [congruence|]. unfold within.
      split.
      + intros [Hw Hr] x f [<-|Hx] Hf; [|eauto]. cbn in Hf. injection Hf as <-.
        apply orb_true_iff in Hw as [Hw|Hw].
        * destruct (snd r) as [j|] eqn:Hj; [|discriminate]. apply Nat.eqb_eq in Hw. subst j.
          eapply Hidx; eauto.
        * now apply Z.leb_le.
      + intros H. split; [|eauto]. apply orb_true_iff; right. apply Z.leb_le. apply (H (e :: v)); auto. }
  apply Hgen. intros k v Hk; exact Hk.
Qed.

Lemma fronts_some (vs : list (list E)) : (forall v, In v vs -> v <> []) ->
  exists set, fronts vs = Some set /\ length set = length vs /\
    (forall j, nth_error set j = match nth_error vs j with Some v => hd_error v | None => None end).
Proof.
  induction vs as [|v vs IH]; intros H; cbn.
  - exists []. repeat split; auto. intros [|j]; auto.
  - destruct v as [|e v]; [exfalso; apply (H []); cbn; auto|].
    destruct IH as (set & Hs & HL & Hn); [intros; apply H; cbn; auto|].
    rewrite Hs. exists (e :: set). cbn. repeat split; auto. intros [|j]; cbn; auto.
Qed.

Lemma nth_error_ext_eq {A} (l l' : list A) : (forall j, nth_error l j = nth_error l' j) -> l = l'.
Proof.
  revert l'; induction l as [|x l IH]; intros [|y l'] H; auto; try (specialize (H 0%nat); discriminate).
  f_equal; [specialize (H 0%nat); now injection H|]. apply IH. intros j. apply (H (S j)).
Qed.

(** ** one iteration of the loop *)
Inductive iter (s : state) : state -> list (list E) -> Prop :=
| iter_match set :
    fits stamp eps set -> length set = n ->
    (forall j v, nth_error (events s) j = Some v -> exists e t, v = e :: t /\ nth_error set j = Some e) ->
    iter s (erase_all erase_beginning s) [set]
| iter_discard m :
    (forall v e, In v (events s) -> hd_error v = Some e -> m <= stamp e) ->
    (exists v e, In v (events s) /\ hd_error v = Some e /\ stamp e = m) ->
    (exists v e, In v (events s) /\ hd_error v = Some e /\ m + eps < stamp e) ->
    iter s (erase_all (erase_if m) s) [].

Lemma total_erase f s :
  good_eraser f -> (total (erase_all f s) <= total s)%nat /\
  ((exists v, In v (events s) /\ v <> [] /\ fst (f v) = tl v) -> (total (erase_all f s) < total s)%nat).
Proof.
  intros Hf. unfold total, erase_all. cbn [events]. rewrite map_map.
  induction (events s) as [|v vs [IH1 IH2]]; cbn.
  - split; auto. intros (v & [] & _).
  - assert (Hv : (length (fst (f v)) <= length v)%nat).
    { destruct (Hf v) as [_ [->| ->]]; auto. destruct v; cbn; lia. }
    unfold list_sum in *.
    split; [lia|]. intros (w & [<-|Hw] & Hne & Hf').
    + rewrite Hf'. destruct v; [congruence|]. cbn [length tl]. lia.
    + specialize (IH2 ltac:(eauto)). lia.
Qed.

Lemma process_iter fuel s outs :
  (0 < n)%nat -> Inv s -> (total s < fuel)%nat ->
  (count s <> n /\ process fuel s outs = Ok (s, outs)) \/
  (exists fuel' s' o, fuel = S fuel' /\ count s = n /\ iter s s' o /\ Inv s' /\ (total s' < total s)%nat /\
     process fuel s outs = process fuel' s' (outs ++ o)).
Proof.
  intros Hn HI Hf. destruct fuel as [|fuel]; [lia|]. cbn [Eps_Model.process].
  destruct (Nat.eqb_spec (count s) n) as [Hc|Hc]; [|left; auto]. right.
  pose proof (Inv_full s HI Hc) as Hne.
  destruct (older_min s Hn HI Hc) as (m & Hm & Hmin & v0 & e0 & Hv0 & He0 & Hs0).
  destruct (all_within_from stamp eps (get_older_timestamp stamp s) 0 (events s)) eqn:Hall.
  - pose proof (proj1 (all_within_from_spec s Hn HI Hc) Hall) as Hw. rewrite Hm in Hw.
    destruct (fronts_some (events s) Hne) as (set & Hset & HL & Hnth). rewrite Hset.
    exists fuel, (erase_all erase_beginning s), [set]. repeat split; auto; try apply erase_all_inv; auto using erase_beginning_good.
    + constructor.
      * intros a b Ha Hb.
        assert (Hb' : forall x, In x set -> m <= stamp x <= m + eps).
        { intros x Hx. apply In_nth_error in Hx as [j Hj]. rewrite Hnth in Hj.
          destruct (nth_error (events s) j) as [v|] eqn:Hv; [|discriminate].
          apply nth_error_In in Hv. split; eauto. }
        apply Hb' in Ha. apply Hb' in Hb. lia.
      * destruct HI as [HI _]. lia.
      * intros j v Hv. destruct v as [|e t]. { exfalso. apply (Hne []); auto. now apply nth_error_In in Hv. }
        exists e, t. split; auto. rewrite Hnth, Hv. reflexivity.
    + apply total_erase; [apply erase_beginning_good|].
      exists v0. repeat split; auto. apply erase_beginning_fst.
  - rewrite Hm.
    exists fuel, (erase_all (erase_if m) s), []. rewrite app_nil_r.
    repeat split; auto; try apply erase_all_inv; auto using erase_if_good.
    + constructor; eauto.
      assert (Hex : ~ forall v e, In v (events s) -> hd_error v = Some e -> stamp e <= m + eps).
      { intros H. rewrite <- Hm in H. apply (all_within_from_spec s Hn HI Hc) in H. congruence. }
      clear -Hex. induction (events s) as [|v vs IH].
      { exfalso. apply Hex. intros v e []. }
      destruct v as [|e v].
      * destruct IH as (w & x & Hw & H). { intros H. apply Hex. intros w x [<-|Hw] Hx; [discriminate|eauto]. }
        exists w, x. cbn; tauto.
      * destruct (Z.ltb_spec (m + eps) (stamp e)) as [Hlt|Hge].
        { exists (e :: v), e. cbn; auto. }
        destruct IH as (w & x & Hw & H).
        { intros H. apply Hex. intros w x [<-|Hw] Hx; [|eauto]. cbn in Hx. injection Hx as <-. auto. }
        exists w, x. cbn; tauto.
    + apply total_erase; [apply erase_if_good|].
      exists v0. repeat split; auto. rewrite erase_if_fst. destruct v0 as [|e v0]; [reflexivity|].
      cbn in He0. injection He0 as <-. destruct (Z.ltb_spec (m + eps) (stamp e)); [lia|reflexivity].
Qed.

(** ** induction principle over the whole loop *)
Lemma process_ind (P : state -> list (list E) -> Prop) :
  (0 < n)%nat ->
  (forall s s' o outs, P s outs -> Inv s -> count s = n -> iter s s' o -> Inv s' -> P s' (outs ++ o)) ->
  forall fuel s outs, (total s < fuel)%nat -> Inv s -> P s outs ->
    exists s' outs', process fuel s outs = Ok (s', outs') /\ P s' outs' /\ Inv s' /\ count s' <> n.
Proof.
  intros Hn Hstep. induction fuel as [|fuel IH]; intros s outs Hf HI HP; [lia|].
  destruct (process_iter (S fuel) s outs Hn HI Hf) as [[Hc Hp]|(f' & s1 & o & [= <-] & Hc & Hit & HI1 & Ht & Hp)].
  - exists s, outs. auto.
  - rewrite Hp. apply IH; auto; [lia|]. eapply Hstep; eauto.
Qed.

(** ** the column/pending subsequence of one iteration *)
Definition at_ (i : nat) (vs : list (list E)) : list E := nth i vs [].

Lemma iter_subseq s s' o i :
  Inv s -> iter s s' o -> subseq (column i o ++ at_ i (events s')) (at_ i (events s)).
Proof.
  intros [HL _] H. inversion H; subst.
  - cbn [erase_all events]. unfold at_, column. cbn [flat_map]. rewrite app_nil_r.
    destruct (nth_error (events s) i) as [v|] eqn:Hv.
    + destruct (H2 i v Hv) as (e & t & -> & He). rewrite He.
      erewrite (nth_error_nth _ _ _ Hv).
      erewrite nth_error_nth. 2:{ rewrite nth_error_map, Hv. reflexivity. }
      rewrite erase_beginning_fst. cbn. apply subseq_refl.
    + apply nth_error_None in Hv. rewrite !nth_overflow; auto.
      2:{ rewrite map_length; auto. }
      assert (Hnone : nth_error set i = None) by (apply nth_error_None; lia).
      rewrite Hnone. constructor.
  - cbn [erase_all events app]. unfold at_, column. cbn.
    destruct (nth_error (events s) i) as [v|] eqn:Hv.
    + erewrite (nth_error_nth _ _ _ Hv).
      erewrite nth_error_nth. 2:{ rewrite nth_error_map, Hv. reflexivity. }
      rewrite erase_if_fst. destruct v as [|e t]; [constructor|].
      destruct (m + eps <? stamp e); [apply subseq_refl|]. constructor. apply subseq_refl.
    + apply nth_error_None in Hv. rewrite !nth_overflow; auto; [constructor|].
      rewrite map_length; auto.
Qed.

Lemma at_nth_error i vs v : nth_error vs i = Some v -> at_ i vs = v.
Proof. apply nth_error_nth. Qed.

Lemma at_in i vs : (i < length vs)%nat -> In (at_ i vs) vs.
Proof. intros H. apply nth_In; auto. Qed.

Lemma at_upd i j w vs : (i < length vs)%nat ->
  at_ j (upd i w vs) = if Nat.eqb j i then w else at_ j vs.
Proof.
  intros Hi. unfold at_. destruct (Nat.eqb_spec j i) as [->|Hj].
  - apply nth_upd_eq; auto.
  - apply nth_upd_neq; auto.
Qed.

Lemma at_map (f : list E -> list E) i vs : f [] = [] -> at_ i (map f vs) = f (at_ i vs).
Proof. intros H. unfold at_. rewrite <- H at 1. apply map_nth. Qed.

(** ** what one iteration does, input by input *)
Definition erased (m : Z) (v : list E) : list E :=
  match v with [] => [] | e :: _ => if m + eps <? stamp e then [] else [e] end.

Lemma iter_cases s s' o :
  Inv s -> iter s s' o ->
  (exists set, o = [set] /\ fits stamp eps set /\ length set = n /\
     forall i, at_ i (events s) = column i o ++ at_ i (events s')) \/
  (exists m, o = [] /\
     (forall i, at_ i (events s) = erased m (at_ i (events s)) ++ at_ i (events s')) /\
     (forall i e, hd_error (at_ i (events s)) = Some e -> m <= stamp e) /\
     (exists j e, (j < n)%nat /\ hd_error (at_ j (events s)) = Some e /\ stamp e = m) /\
     (exists k e, (k < n)%nat /\ hd_error (at_ k (events s)) = Some e /\ m + eps < stamp e)).
Proof.
  intros [HL HC] H. inversion H; subst.
  - left. exists set. repeat split; auto. intros i.
    cbn [erase_all events]. rewrite (at_map (fun v => fst (erase_beginning v))); auto.
    rewrite erase_beginning_fst. unfold column; cbn [flat_map]; rewrite app_nil_r.
    destruct (nth_error (events s) i) as [v|] eqn:Hv.
    + destruct (H2 i v Hv) as (e & t & -> & He). rewrite He, (at_nth_error _ _ _ Hv). reflexivity.
    + apply nth_error_None in Hv. unfold at_. rewrite nth_overflow; auto.
      replace (nth_error set i) with (@None E); auto. symmetry. apply nth_error_None. lia.
  - right. exists m. split; auto. split; [|split; [|split]].
    + intros i. cbn [erase_all events]. rewrite (at_map (fun v => fst (erase_if m v))); auto.
      rewrite erase_if_fst. destruct (at_ i (events s)) as [|e t]; cbn; auto.
      destruct (m + eps <? stamp e); auto.
    + intros i e He. destruct (le_lt_dec (length (events s)) i) as [Hi|Hi].
      * unfold at_ in He. rewrite nth_overflow in He; auto. discriminate.
      * eapply H0; eauto. now apply at_in.
    + destruct H1 as (v & e & Hv & He & Hs). apply In_nth_error in Hv as [j Hj].
      exists j, e. rewrite (at_nth_error _ _ _ Hj). repeat split; auto.
      rewrite <- HL. apply nth_error_Some. congruence.
    + destruct H2 as (v & e & Hv & He & Hs). apply In_nth_error in Hv as [j Hj].
      exists j, e. rewrite (at_nth_error _ _ _ Hj). repeat split; auto.
      rewrite <- HL. apply nth_error_Some. congruence.
Qed.

(** ** one addition *)
Definition pushed (s : state) (i : nat) (e : E) : state :=
  mkState (match at_ i (events s) with [] => S (count s) | _ => count s end)
          (upd i (at_ i (events s) ++ [e]) (events s)).

Lemma pushed_inv s i e : (i < n)%nat -> Inv s -> Inv (pushed s i e).
Proof.
  intros Hi [HL HC]. split; cbn.
  - now rewrite upd_length.
  - assert (Hn : nth_error (events s) i = Some (at_ i (events s))) by (apply nth_error_nth'; lia).
    pose proof (cnt_upd _ _ _ (at_ i (events s) ++ [e]) Hn) as H.
    destruct (at_ i (events s)) as [|x v]; cbn in *; lia.
Qed.

Lemma pushed_at s i e j : (i < n)%nat -> Inv s ->
  at_ j (events (pushed s i e)) = at_ j (events s) ++ (if Nat.eqb j i then [e] else []).
Proof.
  intros Hi [HL _]. unfold pushed; cbn [events]. rewrite at_upd by lia. destruct (Nat.eqb_spec j i) as [->|]; auto. now rewrite app_nil_r.
Qed.

Lemma add_cases s i e :
  (i < n)%nat -> Inv s ->
  let s1 := pushed s i e in
  (count s1 = n /\ add s (i, e) = process (S (total s1)) s1 []) \/
  (count s1 <> n /\ (length (at_ i (events s1)) <= q)%nat /\ add s (i, e) = Ok (s1, [])) \/
  (count s1 <> n /\ (q < length (at_ i (events s1)))%nat /\
   exists s2, add s (i, e) = Ok (s2, []) /\ Inv s2 /\ (count s2 <= count s1)%nat /\
     forall j, at_ j (events s2) = if Nat.eqb j i then tl (at_ j (events s1)) else at_ j (events s1)).
Proof.
  intros Hi HI s1. pose proof HI as [HL HC].
  assert (HI1 : Inv s1) by (apply pushed_inv; auto).
  assert (Hn : nth_error (events s) i = Some (at_ i (events s))) by (apply nth_error_nth'; lia).
  cbn [Eps_Model.add]. rewrite Hn. cbv zeta.
  replace (mkState _ (upd i (at_ i (events s) ++ [e]) (events s))) with s1 by reflexivity.
  change (match at_ i (events s) with [] => S (count s) | _ :: _ => count s end) with (count s1).
  assert (Hv : at_ i (events s) ++ [e] = at_ i (events s1)).
  { unfold s1. rewrite pushed_at, Nat.eqb_refl; auto. }
  rewrite Hv.
  destruct (Nat.eqb_spec (count s1) n) as [Hc|Hc]; [left; auto|right].
  destruct (Nat.ltb_spec q (length (at_ i (events s1)))) as [Hq|Hq]; [right|left; auto].
  split; auto. split; auto.
  pose proof (erase_beginning_good (at_ i (events s1))) as [Hg _].
  pose proof (erase_beginning_fst (at_ i (events s1))) as Hf.
  destruct (erase_beginning (at_ i (events s1))) as [v2 d]. cbn [fst snd] in *. subst v2.
  eexists. split; [reflexivity|]. destruct HI1 as [HL1 HC1].
  split; [split|split].
  - cbn. rewrite upd_length. auto.
  - cbn [count events].
    assert (Hn1 : nth_error (events s1) i = Some (at_ i (events s1))) by (apply nth_error_nth'; lia).
    pose proof (cnt_upd _ _ _ (tl (at_ i (events s1))) Hn1) as H. lia.
  - cbn. lia.
  - intros j. cbn [events]. rewrite at_upd by lia. destruct (Nat.eqb_spec j i) as [->|]; auto.
Qed.

Lemma add_ind (P : state -> list (list E) -> Prop) s i e :
  (i < n)%nat -> Inv s -> count s <> n ->
  P (pushed s i e) [] ->
  (forall s s' o outs, P s outs -> Inv s -> count s = n -> iter s s' o -> Inv s' -> P s' (outs ++ o)) ->
  (forall s1 s2, P s1 [] -> Inv s1 -> (q < length (at_ i (events s1)))%nat -> Inv s2 ->
     (forall j, at_ j (events s2) = if Nat.eqb j i then tl (at_ j (events s1)) else at_ j (events s1)) -> P s2 []) ->
  exists s' outs, add s (i, e) = Ok (s', outs) /\ Inv s' /\ count s' <> n /\ P s' outs.
Proof.
  intros Hi HI Hc HP Hit Hov.
  destruct (add_cases s i e Hi HI) as [(H1 & H2)|[(H1 & H2 & H3)|(H1 & H2 & s2 & H3 & H4 & H5 & H6)]].
  - destruct (process_ind P ltac:(lia) Hit (S (total (pushed s i e))) (pushed s i e) [] ltac:(lia) (pushed_inv s i e Hi HI) HP)
      as (s' & o & Hp & HP' & HI' & Hc').
    exists s', o. rewrite H2. auto.
  - exists (pushed s i e), []. split; auto. split; [apply pushed_inv; auto|]. auto.
  - exists s2, []. split; auto. split; auto. split.
    + destruct (pushed_inv s i e Hi HI) as [HL HC]. pose proof (cnt_le (events (pushed s i e))). lia.
    + eapply Hov; eauto. apply pushed_inv; auto.
Qed.

Lemma run_snoc s h x :
  run s (h ++ [x]) =
  bind (run s h) (fun '(s1, o1) => bind (add s1 x) (fun '(s2, o2) => Ok (s2, o1 ++ o2))).
Proof.
  revert s; induction h as [|y h IH]; intros s; cbn [app Eps_Model.run].
  - cbn. destruct (add s x) as [[s1 o1]|]; cbn; auto. now rewrite app_nil_r.
  - destruct (add s y) as [[s1 o1]|]; cbn; auto. rewrite IH.
    destruct (run s1 h) as [[s2 o2]|]; cbn; auto. destruct (add s2 x) as [[s3 o3]|]; cbn; auto.
    now rewrite app_assoc.
Qed.

Lemma well_indexed_app (h1 h2 : list (nat * E)) :
  well_indexed n (h1 ++ h2) <-> well_indexed n h1 /\ well_indexed n h2.
Proof.
  unfold well_indexed. split.
  - intros H; split; intros i e Hi; eapply H, in_or_app; eauto.
  - intros [H1 H2] i e Hi. apply in_app_or in Hi as [Hi|Hi]; eauto.
Qed.

Lemma init_inv : Inv (init n).
Proof.
  split; cbn; [apply repeat_length|]. clear. induction n; cbn; auto.
Qed.
Lemma init_at i : at_ i (events (init (E:=E) n)) = [].
Proof.
  unfold at_. cbn. destruct (nth_in_or_default i (repeat (@nil E) n) []) as [H|H]; auto.
  now apply repeat_spec in H.
Qed.

(** Induction over histories. *)
Lemma run_ind (P : list (nat * E) -> state -> list (list E) -> Prop) :
  (0 < n)%nat ->
  P [] (init n) [] ->
  (forall h s outs i e, (i < n)%nat -> Inv s -> count s <> n -> P h s outs ->
     exists s' o, add s (i, e) = Ok (s', o) /\ Inv s' /\ count s' <> n /\ P (h ++ [(i, e)]) s' (outs ++ o)) ->
  forall h, well_indexed n h -> exists s outs, run (init n) h = Ok (s, outs) /\ Inv s /\ count s <> n /\ P h s outs.
Proof.
  intros Hn H0 Hstep h. induction h as [|[i e] h IH] using rev_ind; intros HW.
  - exists (init n), []. split; auto. split; [apply init_inv|]. split; auto. cbn. lia.
  - apply well_indexed_app in HW as [HW Hi].
    destruct (IH HW) as (s & outs & Hr & HI & Hc & HP).
    destruct (Hstep h s outs i e) as (s' & o & Ha & HI' & Hc' & HP'); auto.
    { eapply Hi; cbn; eauto. }
    exists s', (outs ++ o). rewrite run_snoc, Hr. cbn [bind]. rewrite Ha. cbn. auto.
Qed.

(** ** C22-C25 together *)
Lemma subseq_tl_app (a b c : list E) : subseq (a ++ b) c -> subseq (a ++ tl b) c.
Proof.
  intros H. eapply subseq_trans; [|exact H]. apply subseq_app; [apply subseq_refl|].
  destruct b; cbn; [constructor|]. constructor. apply subseq_refl.
Qed.

Lemma stream_snoc i j (e : E) h : stream j (h ++ [(i, e)]) = stream j h ++ (if Nat.eqb j i then [e] else []).
Proof. rewrite stream_app. f_equal. rewrite stream_cons. rewrite Nat.eqb_sym. destruct (j =? i)%nat; reflexivity. Qed.

Lemma run_basic h :
  (0 < n)%nat -> well_indexed n h ->
  exists s outs, run (init n) h = Ok (s, outs) /\ Inv s /\ count s <> n /\
    (forall set, In set outs -> length set = n /\ fits stamp eps set) /\
    (forall i, subseq (column i outs ++ at_ i (events s)) (stream i h)) /\
    (forall i, (length (at_ i (events s)) <= q)%nat).
Proof.
  intros Hn HW.
  apply (run_ind (fun h s outs =>
    (forall set, In set outs -> length set = n /\ fits stamp eps set) /\
    (forall i, subseq (column i outs ++ at_ i (events s)) (stream i h)) /\
    (forall i, (length (at_ i (events s)) <= q)%nat))); auto.
  { split; [intros set []|]. split; intros i; rewrite init_at; cbn; [constructor|lia]. }
  clear h HW. intros h s outs i e Hi HI Hc (P1 & P2 & P3).
  assert (Hsub :
   exists s' o, add s (i, e) = Ok (s', o) /\ Inv s' /\ count s' <> n /\
     (forall set, In set (outs ++ o) -> length set = n /\ fits stamp eps set) /\
     (forall j, subseq (column j (outs ++ o) ++ at_ j (events s')) (stream j (h ++ [(i, e)])))).
  { apply (add_ind (fun s' o => (forall set, In set (outs ++ o) -> length set = n /\ fits stamp eps set) /\
     (forall j, subseq (column j (outs ++ o) ++ at_ j (events s')) (stream j (h ++ [(i, e)]))))); auto.
    - rewrite app_nil_r. split; auto. intros j. rewrite pushed_at, stream_snoc, app_assoc; auto.
      apply subseq_app; auto. apply subseq_refl.
    - intros s1 s2 o o' (Q1 & Q2) HI1 Hc1 Hit HI2.
      destruct (iter_cases _ _ _ HI1 Hit) as [(set & -> & Hf & Hl & Hat)|(m & -> & Hat & _)].
      + rewrite app_assoc. split.
        * intros x Hx. apply in_app_or in Hx as [Hx|[<-|[]]]; auto.
        * intros j. specialize (Q2 j). rewrite Hat in Q2. rewrite column_app. now rewrite <- app_assoc.
      + rewrite app_nil_r. split; auto. intros j. specialize (Q2 j).
        eapply subseq_trans; [|exact Q2]. apply subseq_app; [apply subseq_refl|].
        rewrite (Hat j). apply subseq_app_skip, subseq_refl.
    - intros s1 s2 (Q1 & Q2) HI1 Hq HI2 Hat. split; auto. intros j. specialize (Q2 j). rewrite Hat.
      destruct (j =? i)%nat; auto. now apply subseq_tl_app. }
  destruct Hsub as (s' & o & Ha & HI' & Hc' & Q1 & Q2). exists s', o. repeat (split; auto).
  (* the bound *)
  clear Q1 Q2.
  destruct (add_cases s i e Hi HI) as [(H1 & H2)|[(H1 & H2 & H3)|(H1 & H2 & s2 & H3 & H4 & H5 & H6)]].
  - assert (Hempty : at_ i (events s) = []).
    { cbn in H1. destruct (at_ i (events s)); auto. congruence. }
    destruct (process_ind (fun s' _ => forall j, (length (at_ j (events s')) <= length (at_ j (events (pushed s i e))))%nat) Hn) with
      (fuel := S (total (pushed s i e))) (s := pushed s i e) (outs := @nil (list E)) as (s'' & o'' & Hp & HP' & HI'' & Hc''); auto.
    { intros s1 s2 o1 outs1 HP1 HI1 _ Hit _ j. specialize (HP1 j).
      destruct (iter_cases _ _ _ HI1 Hit) as [(set & -> & Hf & Hl & Hat)|(m & -> & Hat & _)];
        rewrite (Hat j), app_length in HP1; lia. }
    { apply pushed_inv; auto. }
    assert (s'' = s') by congruence. subst s''. clear Hp.
    assert (Hle : forall j, j <> i -> (length (at_ j (events s')) <= q)%nat).
    { intros j Hj. specialize (HP' j). rewrite pushed_at in HP' by auto.
      apply Nat.eqb_neq in Hj. rewrite Hj, app_nil_r in HP'. specialize (P3 j). lia. }
    intros j. destruct (Nat.eq_dec j i) as [->|]; auto.
    specialize (HP' i). rewrite pushed_at, Hempty, Nat.eqb_refl in HP' by auto. cbn in HP'.
    destruct q as [|q'] eqn:Eq; [|lia].
    (* queue size 0: then n = 1, and the loop emptied the vector *)
    assert (Hall : forall v, In v (events (pushed s i e)) -> v <> []).
    { apply Inv_full; auto. apply pushed_inv; auto. }
    assert (n = 1%nat).
    { destruct (Nat.eq_dec n 1) as [|Hn1]; auto. exfalso.
      destruct (pushed_inv s i e Hi HI) as [HLp _].
      set (j := if Nat.eq_dec i 0 then 1%nat else 0%nat).
      assert (Hj : (j < n)%nat /\ j <> i) by (unfold j; destruct (Nat.eq_dec i 0); lia).
      apply (Hall (at_ j (events (pushed s i e)))). { apply at_in. lia. }
      rewrite pushed_at by auto. destruct Hj as [_ Hj]. apply Nat.eqb_neq in Hj. rewrite Hj, app_nil_r.
      apply length_zero_iff_nil. specialize (P3 j). lia. }
    destruct HI' as [HL' HC'].
    assert (i = 0)%nat by lia. subst i.
    destruct (events s') as [|v [|w vs]] eqn:Hev; cbn in HL'; try lia.
    unfold at_; cbn. destruct v; cbn in *; lia.
  - assert (s' = pushed s i e) by congruence. subst s'. intros j.
    destruct (Nat.eq_dec j i) as [->|Hj]; auto. rewrite pushed_at by auto.
    apply Nat.eqb_neq in Hj. rewrite Hj, app_nil_r. auto.
  - assert (s' = s2) by congruence. subst s'. intros j. rewrite H6.
    destruct (Nat.eqb_spec j i) as [->|Hj].
    + rewrite pushed_at, Nat.eqb_refl by auto. specialize (P3 i).
      destruct (at_ i (events s)) as [|x v]; cbn in *; [lia|]. rewrite app_length. cbn. lia.
    + rewrite pushed_at by auto. apply Nat.eqb_neq in Hj. rewrite Hj, app_nil_r. auto.
Qed.

(** ** accounting and usability (C26) *)
Notation close := (close stamp eps).
Notation close_transitive := (close_transitive stamp eps).

Definition Acct (h : list (nat * E)) (s : state) (outs : list (list E)) (D V : nat -> list E) : Prop :=
  (forall i, Permutation (stream i h) (column i outs ++ D i ++ V i ++ at_ i (events s))) /\
  (forall i, (length (stream i h) <= q)%nat -> V i = []) /\
  (forall i, subseq (at_ i (events s)) (stream i h)).

Definition Usable (h : list (nat * E)) (s : state) (D : nat -> list E) : Prop :=
  forall j x, In x (D j) ->
    exists k, (k < n)%nat /\ k <> j /\
      (forall y, In y (D k ++ at_ k (events s)) -> ~ close x y) /\
      (exists y0, In y0 (stream k h) /\ stamp x + eps < stamp y0).

Lemma close_sym x y : close x y -> close y x.
Proof. unfold Eps_Spec.close. lia. Qed.

Lemma run_acct h :
  (0 < n)%nat -> well_indexed n h -> time_ordered stamp n h ->
  (n = 2%nat \/ close_transitive h) ->
  exists s outs, run (init n) h = Ok (s, outs) /\ Inv s /\ count s <> n /\
    exists D V, Acct h s outs D V /\ (forall j, (n <= j)%nat -> D j = []) /\ Usable h s D.
Proof.
  intros Hn HW HT HTr.
  apply (run_ind (fun h s outs => time_ordered stamp n h -> (n = 2%nat \/ close_transitive h) ->
    exists D V, Acct h s outs D V /\ (forall j, (n <= j)%nat -> D j = []) /\ Usable h s D)) in HW; auto.
  { destruct HW as (s & outs & H1 & H2 & H3 & H4). exists s, outs. auto 6. }
  { intros _ _. exists (fun _ => []), (fun _ => []). split; [|split; auto].
    - split; [|split; auto]; intros i; rewrite init_at; cbn; constructor.
    - intros j x []. }
  clear h HW HT HTr. intros h s outs i e Hi HI Hc IH.
  set (h1 := h ++ [(i, e)]).
  assert (Hcore : exists s' o, add s (i, e) = Ok (s', o) /\ Inv s' /\ count s' <> n /\
     (time_ordered stamp n h1 -> (n = 2%nat \/ close_transitive h1) ->
       exists D V, Acct h1 s' (outs ++ o) D V /\ (forall j, (n <= j)%nat -> D j = []) /\ Usable h1 s' D)).
  2:{ exact Hcore. }
  apply (add_ind (fun s' o => time_ordered stamp n h1 -> (n = 2%nat \/ close_transitive h1) ->
       exists D V, Acct h1 s' (outs ++ o) D V /\ (forall j, (n <= j)%nat -> D j = []) /\ Usable h1 s' D)); auto.
  - (* the new message is pushed *)
    intros HT HTr. destruct IH as (D & V & (HA & HV & HS) & HD & HU).
    { intros k Hk. specialize (HT k Hk). unfold h1 in HT. rewrite stream_snoc in HT.
      now apply StronglySorted_app in HT. }
    { destruct HTr as [|HTr]; auto. right. intros a b c x y z Ha Hb Hc'. apply (HTr a b c); unfold h1; apply in_or_app; auto. }
    exists D, V. rewrite app_nil_r. split; [split; [|split]|split; auto].
    + intros j. unfold h1. rewrite pushed_at, stream_snoc by auto.
      eapply Permutation_trans; [apply Permutation_app_tail, HA|]. perm.
    + intros j. unfold h1. rewrite stream_snoc, app_length. intros Hj. apply HV. lia.
    + intros j. unfold h1. rewrite pushed_at, stream_snoc by auto. apply subseq_app; auto. apply subseq_refl.
    + intros j x Hx. destruct (HU j x Hx) as (k & Hk & Hjk & Hy & y0 & Hy0 & Hlt).
      exists k. split; auto. split; auto. split.
      * intros y Hin. rewrite pushed_at, app_assoc in Hin by auto. apply in_app_or in Hin as [Hin|Hin]; auto.
        destruct (Nat.eqb_spec k i) as [->|]; [|destruct Hin]. destruct Hin as [<-|[]].
        specialize (HT i Hi). unfold h1 in HT. rewrite stream_snoc, Nat.eqb_refl in HT.
        apply StronglySorted_app in HT as (_ & _ & HT). specialize (HT y0 e Hy0 (or_introl eq_refl)).
        cbn in HT. unfold Eps_Spec.close. lia.
      * exists y0. split; auto. unfold h1. rewrite stream_snoc. apply in_or_app; auto.
  - (* one iteration *)
    clear s Hc HI IH. intros s s' o outs' IH HI Hc Hit HI' HT HTr.
    destruct (IH HT HTr) as (D & V & (HA & HV & HS) & HD & HU). clear IH.
    destruct (iter_cases _ _ _ HI Hit) as [(set & -> & Hf & Hl & Hat)|(m & -> & Hat & Hmin & Hm & Hk)].
    + exists D, V. split; [split; [|split; auto]|split; auto].
      * intros j. eapply Permutation_trans; [apply HA|]. rewrite (Hat j), !column_app. perm.
      * intros j. eapply subseq_trans; [|apply HS]. rewrite (Hat j). apply subseq_app_skip, subseq_refl.
      * intros j x Hx. destruct (HU j x Hx) as (k & Hk & Hjk & Hy & Hy0).
        exists k. repeat (split; auto). intros y Hin. apply Hy. rewrite Hat.
        rewrite !in_app_iff in *. tauto.
    + set (F := fun i => erased m (at_ i (events s))).
      (* facts about pending messages *)
      assert (Hpend : forall a y, In y (at_ a (events s)) -> In y (stream a h1)).
      { intros a y Hy. eapply Permutation_in; [apply Permutation_sym, HA|]. rewrite !in_app_iff. auto. }
      assert (HDs : forall a y, In y (D a) -> In y (stream a h1)).
      { intros a y Hy. eapply Permutation_in; [apply Permutation_sym, HA|]. rewrite !in_app_iff. auto. }
      assert (Hlo : forall a f y, hd_error (at_ a (events s)) = Some f -> In y (at_ a (events s)) -> stamp f <= stamp y).
      { intros a f y Hf Hy. destruct (le_lt_dec n a) as [Ha|Ha].
        { exfalso. destruct HI as [HL _]. unfold at_ in Hy. rewrite nth_overflow in Hy by lia. destruct Hy. }
        pose proof (subseq_sorted _ _ _ (HS a) (HT a Ha)) as HSo.
        destruct (at_ a (events s)) as [|b t]; [discriminate|]. injection Hf as ->.
        destruct Hy as [->|Hy]; [lia|]. inversion HSo; subst. rewrite Forall_forall in H2. now apply H2. }
      assert (HF : forall a y, In y (F a) -> hd_error (at_ a (events s)) = Some y /\ m <= stamp y <= m + eps).
      { intros a y. unfold F, erased. specialize (Hmin a).
        destruct (at_ a (events s)) as [|b t]; [intros []|]. specialize (Hmin b eq_refl).
        destruct (Z.ltb_spec (m + eps) (stamp b)) as [|Hle]; [intros []|]. intros [<-|[]]. cbn. auto. }
      destruct Hm as (jm & em & Hjm & Hem & Hsm). destruct Hk as (kf & f & Hkf & Hff & Hfm).
      assert (HFk : F kf = []).
      { unfold F, erased. destruct (at_ kf (events s)) as [|b t]; auto. injection Hff as ->.
        destruct (Z.ltb_spec (m + eps) (stamp f)); auto; lia. }
      assert (HFin : forall a y, In y (F a) -> In y (at_ a (events s))).
      { intros a y Hy. apply HF in Hy as [Hy _]. destruct (at_ a (events s)); [discriminate|].
        injection Hy as ->. cbn; auto. }
      assert (HFn : forall a, (n <= a)%nat -> F a = []).
      { intros a Ha. unfold F, at_. rewrite nth_overflow; auto. destruct HI as [HL _]. lia. }
      exists (fun a => D a ++ F a), V. split; [split; [|split; auto]|split].
      * intros a. eapply Permutation_trans; [apply HA|]. rewrite (Hat a) at 1. fold (F a). rewrite app_nil_r. perm.
      * intros a. eapply subseq_trans; [|apply HS]. rewrite (Hat a). apply subseq_app_skip, subseq_refl.
      * intros a Ha. rewrite HD, HFn; auto.
      * (* all y in [D k ++ F k ++ remaining k] are in [D k ++ pending k] *)
        assert (Hinc : forall k y, In y ((D k ++ F k) ++ at_ k (events s')) -> In y (D k ++ at_ k (events s))).
        { intros k y Hy. rewrite (Hat k). fold (F k). rewrite !in_app_iff in *. tauto. }
        intros j x Hx. apply in_app_or in Hx as [Hx|Hx].
        { destruct (HU j x Hx) as (k & Hk & Hjk & Hy & Hy0). exists k. repeat (split; auto). }
        destruct (HF j x Hx) as [Hhd Hxr].
        assert (Hjk : kf <> j). { intros ->. rewrite HFk in Hx. destruct Hx. }
        assert (Hj : (j < n)%nat). { destruct (le_lt_dec n j); auto. rewrite HFn in Hx; auto. destruct Hx. }
        assert (Hxin : In (j, x) h1) by (apply stream_in, Hpend, HFin; auto).
        assert (Hfin : In f (stream kf h1)).
        { apply Hpend. destruct (at_ kf (events s)); [discriminate|]. injection Hff as ->. cbn; auto. }
        assert (Hemin : In (jm, em) h1).
        { apply stream_in, Hpend. destruct (at_ jm (events s)); [discriminate|]. injection Hem as ->. cbn; auto. }
        destruct HTr as [Hn2|HTr].
        -- (* two inputs *)
           assert (jm <> kf).
           { intros ->. rewrite Hem in Hff. injection Hff as ->. lia. }
           assert (jm = j) by lia. subst jm. rewrite Hem in Hhd. injection Hhd as ->.
           exists kf. split; auto. split; auto. split.
           ++ intros y Hy. apply Hinc in Hy. apply in_app_or in Hy as [Hy|Hy].
              ** destruct (HU kf y Hy) as (k' & Hk' & Hkk' & Hyy & _).
                 assert (k' = j) by lia. subst k'. intros Hcl. apply (Hyy x); [|now apply close_sym].
                 apply in_or_app; right. now apply HFin.
              ** specialize (Hlo kf f y Hff Hy). unfold Eps_Spec.close. lia.
           ++ exists f. split; auto. lia.
        -- (* closeness is transitive *)
           assert (Hxm : close x em) by (unfold Eps_Spec.close; lia).
           assert (Hdec : (exists a z, In z (D a) /\ close z x) \/ (forall a z, In z (D a) -> ~ close z x)).
           { assert (Hb : forall N, (exists a z, (a < N)%nat /\ In z (D a) /\ close z x) \/ (forall a z, (a < N)%nat -> In z (D a) -> ~ close z x)).
             { induction N as [|N IHN]; [right; intros; lia|].
               destruct IHN as [(a & z & Ha & H)|HN]; [left; exists a, z; split; auto; lia|].
               destruct (Exists_dec (fun z => close z x) (D N)) as [He|He].
               { intros z. unfold Eps_Spec.close. destruct (Z_le_dec (Z.abs (stamp z - stamp x)) eps); auto. }
               - apply Exists_exists in He as (z & Hz & Hcz). left. exists N, z. auto.
               - right. intros a z Ha Hz Hcz. destruct (Nat.eq_dec a N) as [->|]; [|apply (HN a z); auto; lia].
                 apply He, Exists_exists. eauto. }
             destruct (Hb n) as [(a & z & _ & H)|HN]; [left; eauto|]. right. intros a z Hz.
             destruct (le_lt_dec n a) as [Ha|Ha]; [|eauto]. rewrite HD in Hz by auto. destruct Hz. }
           destruct Hdec as [(a & z & Hz & Hzx)|Hno].
           ++ destruct (HU a z Hz) as (k & Hk & Hak & Hy & y0 & Hy0 & Hlt).
              assert (Hzin : In (a, z) h1) by (apply stream_in, HDs; auto).
              assert (Hkj : k <> j).
              { intros ->. apply (Hy x); auto. apply in_or_app; right. now apply HFin. }
              exists k. split; auto. split; auto. split.
              ** intros y Hyi Hcl. apply Hinc in Hyi. apply (Hy y Hyi).
                 apply (HTr a j k z x y); auto. apply stream_in.
                 apply in_app_or in Hyi as [Hyi|Hyi]; auto.
              ** exists y0. split; auto.
                 destruct (Z_lt_dec (stamp x + eps) (stamp y0)); auto. exfalso.
                 assert (Hcl : close z y0); [|unfold Eps_Spec.close in Hcl; lia].
                 apply (HTr a j k z x y0); auto; [now apply stream_in|].
                 unfold Eps_Spec.close in *. lia.
           ++ exists kf. split; auto. split; auto.
              assert (Hfy : forall y, In (kf, y) h1 -> stamp f <= stamp y -> stamp x + eps < stamp y).
              { intros y Hy Hfy. destruct (Z_lt_dec (stamp x + eps) (stamp y)); auto. exfalso.
                assert (Hcl : close em y); [|unfold Eps_Spec.close in Hcl; lia].
                apply (HTr jm j kf em x y); auto; [now apply close_sym|]. unfold Eps_Spec.close; lia. }
              split.
              ** intros y Hy. apply Hinc in Hy. apply in_app_or in Hy as [Hy|Hy].
                 --- intros Hcl. apply (Hno kf y Hy). now apply close_sym.
                 --- specialize (Hfy y ltac:(apply stream_in; auto) (Hlo kf f y Hff Hy)). unfold Eps_Spec.close. lia.
              ** exists f. split; auto. apply Hfy; [now apply stream_in|lia].
  - intros s1 s2 IH1 HI1 Hq HI2 Hat HT HTr.
    destruct (IH1 HT HTr) as (D & V & (HA & HV & HS) & HD & HU).
    exists D, (fun j => V j ++ (if Nat.eqb j i then firstn 1 (at_ j (events s1)) else [])).
    split; [split; [|split]|split; auto].
    + intros j. eapply Permutation_trans; [apply HA|]. rewrite Hat.
      destruct (j =? i)%nat; [|rewrite !app_nil_r; auto].
      destruct (at_ j (events s1)) as [|x t]; cbn [tl firstn]; [rewrite !app_nil_r; auto|].
      change (x :: t) with ([x] ++ t). perm.
    + intros j Hj. destruct (Nat.eqb_spec j i) as [->|]; [|rewrite app_nil_r; auto].
      exfalso. specialize (HA i). apply Permutation_length in HA. rewrite !app_length in HA. lia.
    + intros j. eapply subseq_trans; [|apply HS]. rewrite Hat. destruct (j =? i)%nat; [|apply subseq_refl].
      destruct (at_ j (events s1)); cbn; [constructor|]. constructor. apply subseq_refl.
    + intros j x Hx. destruct (HU j x Hx) as (k & Hk & Hjk & Hy & Hy0).
      exists k. repeat (split; auto). intros y Hin. apply Hy. rewrite Hat in Hin.
      rewrite in_app_iff in *. destruct (k =? i)%nat; auto. destruct Hin as [|Hin]; auto.
      right. destruct (at_ k (events s1)); cbn in *; auto.
Qed.

(** ** one addition, exactly *)
Lemma add_incomplete s i e :
  (i < n)%nat -> Inv s -> (length (at_ i (events s)) <= q)%nat ->
  (exists j, (j < n)%nat /\ j <> i /\ at_ j (events s) = []) ->
  exists s', add s (i, e) = Ok (s', []) /\
    at_ i (events s') = skipn (S (length (at_ i (events s))) - q) (at_ i (events s) ++ [e]) /\
    forall j, j <> i -> at_ j (events s') = at_ j (events s).
Proof.
  intros Hi HI Hq (j & Hj & Hji & Hje).
  assert (Hlen : length (at_ i (events (pushed s i e))) = S (length (at_ i (events s)))).
  { rewrite pushed_at, Nat.eqb_refl by auto. rewrite app_length; cbn; lia. }
  assert (Hat : forall k, k <> i -> at_ k (events (pushed s i e)) = at_ k (events s)).
  { intros k Hk. rewrite pushed_at by auto. destruct (Nat.eqb_spec k i); [congruence|]. apply app_nil_r. }
  assert (Hati : at_ i (events (pushed s i e)) = at_ i (events s) ++ [e]) by (rewrite pushed_at, Nat.eqb_refl; auto).
  destruct (add_cases s i e Hi HI) as [(H1 & _)|[(H1 & H2 & H3)|(H1 & H2 & s2 & H3 & H4 & H5 & H6)]].
  - exfalso. assert (HI1 : Inv (pushed s i e)) by now apply pushed_inv.
    apply (Inv_full _ HI1 H1 (at_ j (events (pushed s i e)))); [apply at_in; destruct HI1; lia|]. rewrite Hat; auto.
  - exists (pushed s i e). split; auto. split; auto. rewrite Hati, Hlen in *.
    replace (S (length (at_ i (events s))) - q)%nat with 0%nat by lia. reflexivity.
  - exists s2. split; auto. rewrite Hlen in *. split.
    + rewrite H6, Nat.eqb_refl, Hati. replace (S (length (at_ i (events s))) - q)%nat with 1%nat by lia.
      destruct (at_ i (events s)); reflexivity.
    + intros k Hk. rewrite H6. destruct (Nat.eqb_spec k i); [congruence|]. auto.
Qed.

Lemma iter_fits s s' o set :
  Inv s -> iter s s' o -> length set = n ->
  (forall j, (j < n)%nat -> nth_error set j = hd_error (at_ j (events s))) -> fits stamp eps set -> o = [set].
Proof.
  intros [HL _] Hit Hlen Hset Hfit. inversion Hit as [set' F1 F2 F3|m F1 F2 F3]; subst.
  - f_equal. apply nth_error_ext_eq. intros j. destruct (lt_dec j n) as [Hj|Hj].
    + rewrite Hset by auto. destruct (F3 j (at_ j (events s))) as (x & t & Hv & ->); [apply nth_error_nth'; lia|].
      now rewrite Hv.
    + rewrite !(proj2 (nth_error_None _ _)) by lia. reflexivity.
  - exfalso. destruct F2 as (v & a & Hv & Ha & Has), F3 as (w & b & Hw & Hb & Hbs).
    assert (Hin : forall u x, In u (events s) -> hd_error u = Some x -> In x set).
    { intros u x Hu Hx. apply In_nth_error in Hu as [j Hj]. apply (nth_error_In set j).
      rewrite Hset, (at_nth_error _ _ _ Hj); auto. rewrite <- HL. apply nth_error_Some. congruence. }
    specialize (Hfit b a (Hin w b Hw Hb) (Hin v a Hv Ha)). lia.
Qed.

Lemma add_complete s i e set :
  (i < n)%nat -> Inv s -> length set = n ->
  (forall j, (j < n)%nat -> nth_error set j = hd_error (at_ j (events s) ++ (if Nat.eqb j i then [e] else []))) ->
  fits stamp eps set ->
  exists s' rest, add s (i, e) = Ok (s', set :: rest).
Proof.
  intros Hi HI Hlen Hset Hfit.
  assert (HI1 : Inv (pushed s i e)) by now apply pushed_inv.
  assert (Hset' : forall j, (j < n)%nat -> nth_error set j = hd_error (at_ j (events (pushed s i e)))).
  { intros j Hj. rewrite pushed_at by auto. auto. }
  assert (Hfull : count (pushed s i e) = n).
  { destruct HI1 as [HL HC]. rewrite HC, <- HL. apply cnt_full. intros v Hv.
    apply In_nth_error in Hv as [j Hj].
    assert (Hjn : (j < n)%nat) by (rewrite <- HL; apply nth_error_Some; congruence).
    specialize (Hset' j Hjn). rewrite (at_nth_error _ _ _ Hj) in Hset'. intros ->.
    cbn in Hset'. apply nth_error_None in Hset'. lia. }
  destruct (add_cases s i e Hi HI) as [(_ & ->)|[(H1 & _)|(H1 & _)]]; try congruence.
  destruct (process_iter (S (total (pushed s i e))) (pushed s i e) [] ltac:(lia) HI1 ltac:(lia))
    as [[Hc _]|(f' & s1 & o & [= <-] & Hc & Hit & HI' & Ht & ->)]; [congruence|].
  rewrite (iter_fits _ _ _ set HI1 Hit Hlen Hset' Hfit). cbn [app].
  destruct (process_ind (fun _ o => exists r, o = set :: r) ltac:(lia)) with (fuel := total (pushed s i e)) (s := s1) (outs := [set])
    as (s' & o' & -> & (r & ->) & _); eauto.
  intros ? ? o1 ? (r & ->) _ _ _ _. exists (r ++ o1). reflexivity.
Qed.
End Proofs.
