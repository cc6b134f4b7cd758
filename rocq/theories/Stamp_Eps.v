(** Messages without a valid time in ApproximateEpsilonTime. *)
From Coq Require Import List Arith ZArith Lia Bool.
From Verif Require Import Base RclTime Trace Eps_Model Eps_Spec Eps_Proofs Stamp_Model Stamp_Spec Stamp_Proofs.
Import ListNotations.
Local Open Scope Z_scope.

Section P.
Context {E : Type} (stamp : E -> option Z) (n q : nat) (eps : Z) (f : E -> Z).
Hypothesis Hf : agrees stamp f.
Hypothesis Hmax : forall e, f e <= int64_max.
Hypothesis Heps : 0 <= eps.
Hypothesis Hn : (0 < n)%nat.
Notation state := (state E).
Notation Inv := (Inv n).

Definition heads_valid (vs : list (list E)) : Prop := forall v e, In v vs -> hd_error v = Some e -> valid stamp e.
Definition bad_head (vs : list (list E)) : Prop := exists v e, In v vs /\ hd_error v = Some e /\ invalid stamp e.

Lemma heads_cases vs : heads_valid vs \/ bad_head vs.
Proof.
  induction vs as [|[|x v] vs IH].
  - left. intros v e [].
  - destruct IH as [IH|(w & e & H)].
    + left. intros w e [<-|Hw]; [discriminate|eauto].
    + right. exists w, e. cbn; tauto.
  - destruct (stamp x) eqn:Ex.
    + destruct IH as [IH|(w & e & H)].
      * left. intros w e [<-|Hw]; [|eauto]. cbn. intros [= <-]. unfold valid. congruence.
      * right. exists w, e. cbn; tauto.
    + right. exists (x :: v), x. cbn. unfold invalid. auto.
Qed.

Lemma heads_valid_cons v vs : heads_valid (v :: vs) -> heads_valid vs.
Proof. intros H w e Hw. apply H. now right. Qed.

Lemma older_x_ok vs : heads_valid vs -> forall is cur, older_from_x stamp is vs cur = Some (older_from f is vs cur).
Proof.
  induction vs as [|[|x v] vs IH]; intros HV is cur; cbn [older_from_x older_from]; auto.
  - cbn [older_between]. apply IH. eapply heads_valid_cons; eauto.
  - rewrite (valid_some stamp f Hf x) by (apply (HV (x :: v) x); cbn; auto). cbn [older_between].
    apply IH. eapply heads_valid_cons; eauto.
Qed.

Lemma older_x_bad vs : bad_head vs -> forall is cur, older_from_x stamp is vs cur = None.
Proof.
  induction vs as [|[|x v] vs IH]; intros (w & e & Hw & He & Hs) is cur; cbn [older_from_x].
  - destruct Hw.
  - destruct Hw as [<-|Hw]; [discriminate|]. apply IH. exists w, e. auto.
  - destruct Hw as [<-|Hw].
    + cbn in He. injection He as <-. now rewrite Hs.
    + destruct (stamp x); auto. apply IH. exists w, e. auto.
Qed.

Lemma all_within_x_ok older vs : heads_valid vs -> forall is, all_within_x stamp eps older is vs = Some (all_within_from f eps older is vs).
Proof.
  induction vs as [|v vs IH]; intros HV is; cbn [all_within_x all_within_from]; auto.
  rewrite IH by (eapply heads_valid_cons; eauto). unfold within_x, within.
  destruct (match snd older with Some j => Nat.eqb is j | None => false end); cbn [orb]; auto.
  destruct v as [|x v]; auto. rewrite (valid_some stamp f Hf x) by (apply (HV (x :: v) x); cbn; auto). auto.
Qed.

Lemma erase_sync_ok ts vs : heads_valid vs ->
  erase_sync_x stamp eps ts vs = (map (fun v => fst (erase_if_on_sync f eps ts v)) vs,
                                  list_sum (map (fun v => snd (erase_if_on_sync f eps ts v)) vs), false).
Proof.
  induction vs as [|[|x v] vs IH]; intros HV; cbn [erase_sync_x map erase_if_on_sync]; auto.
  - rewrite IH by (eapply heads_valid_cons; eauto). reflexivity.
  - rewrite (valid_some stamp f Hf x) by (apply (HV (x :: v) x); cbn; auto).
    rewrite IH by (eapply heads_valid_cons; eauto). destruct (if ts + eps <? f x then _ else _); reflexivity.
Qed.

Lemma fronts_valid vs set : fronts vs = Some set -> heads_valid vs -> Forall (valid stamp) set.
Proof.
  revert set; induction vs as [|[|x v] vs IH]; cbn [fronts]; intros set; [intros [= <-]; constructor|discriminate|].
  destruct (fronts vs) as [l|]; [|discriminate]. intros [= <-] HV. constructor.
  - apply (HV (x :: v) x); cbn; auto.
  - apply IH; auto. eapply heads_valid_cons; eauto.
Qed.

Definition set_ok (X : list E) : Prop := length X = n /\ fits f eps X /\ Forall (valid stamp) X.

(** one iteration with valid heads is one of the model without exceptions *)
Lemma process_x_iter fuel (s : state) : Inv s -> count s = n -> heads_valid (events s) ->
  exists s' o, iter f n eps s s' o /\ Inv s' /\ (total s' < total s)%nat /\ Forall set_ok o /\
    eps_process_x stamp n eps (S fuel) s =
      (do '(s2, o2, b) <- eps_process_x stamp n eps fuel s'; Ok (s2, o ++ o2, b)) /\
    forall outs, process f n eps (S fuel) s outs = process f n eps fuel s' (outs ++ o).
Proof.
  intros HI Hc HV. cbn [eps_process_x process]. rewrite Hc, Nat.eqb_refl.
  rewrite older_x_ok by auto. fold (get_older_timestamp f s). rewrite all_within_x_ok by auto.
  pose proof (Inv_full n s HI Hc) as Hne.
  destruct (older_min f n Hmax s Hn HI Hc) as (m & Hm & Hmin & v0 & e0 & Hv0 & He0 & Hs0).
  destruct (all_within_from f eps (get_older_timestamp f s) 0 (events s)) eqn:Hall.
  - pose proof (proj1 (all_within_from_spec f n eps Heps s Hn HI Hc) Hall) as Hw. rewrite Hm in Hw.
    destruct (fronts_some (events s) Hne) as (set & Hset & HL & Hnth). rewrite Hset.
    assert (fits f eps set) as Hfits.
    { intros a b Ha Hb.
      assert (Hb' : forall x, In x set -> m <= f x <= m + eps).
      { intros x Hx. apply In_nth_error in Hx as [j Hj]. rewrite Hnth in Hj.
        destruct (nth_error (events s) j) as [v|] eqn:Hv; [|discriminate].
        apply nth_error_In in Hv. split; eauto. }
      apply Hb' in Ha. apply Hb' in Hb. lia. }
    exists (erase_all erase_beginning s), [set]. split; [|split; [|split; [|split; [|split]]]].
    + constructor; auto.
      * destruct HI as [HI _]. lia.
      * intros j v Hv. destruct v as [|e t]. { exfalso. apply (Hne []); auto. now apply nth_error_In in Hv. }
        exists e, t. split; auto. rewrite Hnth, Hv. reflexivity.
    + apply erase_all_inv; auto using erase_beginning_good.
    + apply total_erase; [apply erase_beginning_good|]. exists v0. split; auto. split; [now apply Hne|]. apply erase_beginning_fst.
    + constructor; [|constructor]. split; [destruct HI; lia|]. split; auto. eapply fronts_valid; eauto.
    + destruct (eps_process_x stamp n eps fuel (erase_all erase_beginning s)) as [[[? ?] ?]|]; reflexivity.
    + reflexivity.
  - rewrite Hm. rewrite erase_sync_ok by auto.
    exists (erase_all (erase_if_on_sync f eps m) s), []. split; [|split; [|split; [|split; [|split]]]].
    + constructor; eauto.
      assert (Hex : ~ forall v e, In v (events s) -> hd_error v = Some e -> f e <= m + eps).
      { intros H. rewrite <- Hm in H. apply (all_within_from_spec f n eps Heps s Hn HI Hc) in H. congruence. }
      clear -Hex. induction (events s) as [|v vs IH].
      { exfalso. apply Hex. intros v e []. }
      destruct v as [|e v].
      * destruct IH as (w & x & Hw & H). { intros H. apply Hex. intros w x [<-|Hw] Hx; [discriminate|eauto]. }
        exists w, x. cbn; tauto.
      * destruct (Z.ltb_spec (m + eps) (f e)) as [Hlt|Hge].
        { exists (e :: v), e. cbn; auto. }
        destruct IH as (w & x & Hw & H).
        { intros H. apply Hex. intros w x [<-|Hw] Hx; [|eauto]. cbn in Hx. injection Hx as <-. auto. }
        exists w, x. cbn; tauto.
    + apply erase_all_inv; auto. apply erase_if_good.
    + apply total_erase; [apply erase_if_good|].
      exists v0. split; auto. split; [now apply Hne|].
      rewrite erase_if_fst. destruct v0 as [|e v0]; [reflexivity|].
      cbn in He0. injection He0 as <-. destruct (Z.ltb_spec (m + eps) (f e)); [lia|reflexivity].
    + constructor.
    + replace (n - list_sum (map (fun v => snd (erase_if_on_sync f eps m v)) (events s)))%nat
        with (count (erase_all (erase_if_on_sync f eps m) s)) by (cbn; now rewrite Hc).
      match goal with |- ?A = bind ?B _ => change B with A; destruct A as [[[? ?] ?]|]; reflexivity end.
    + intros outs. now rewrite app_nil_r.
Qed.

Definition Live (s : state) : Prop := Inv s /\ count s <> n.
Definition Dead (s : state) : Prop := Inv s /\ count s = n /\ bad_head (events s).

Lemma process_x_ok fuel : forall s : state, Inv s -> (total s < fuel)%nat ->
  exists s' o b, eps_process_x stamp n eps fuel s = Ok (s', o, b) /\ Forall set_ok o /\
    (forall j, subseq (column j o ++ at_ j (events s')) (at_ j (events s))) /\
    (if b then Dead s' else Live s' /\ forall outs, process f n eps fuel s outs = Ok (s', outs ++ o)).
Proof.
  induction fuel as [|fuel IH]; intros s HI Hfu; [lia|].
  destruct (Nat.eq_dec (count s) n) as [Hc|Hc].
  2:{ exists s, [], false. cbn. apply Nat.eqb_neq in Hc as Hc'. rewrite Hc'. split; auto. split; [constructor|].
      split; [intros; apply subseq_refl|]. split; [split; auto|]. intros outs. now rewrite app_nil_r. }
  destruct (heads_cases (events s)) as [HV|HB].
  2:{ exists s, [], true. cbn. rewrite Hc, Nat.eqb_refl, older_x_bad by auto. split; auto. split; [constructor|].
      split; [intros; apply subseq_refl|]. split; auto. }
  destruct (process_x_iter fuel s HI Hc HV) as (s1 & o1 & Hit & HI1 & Ht & Ho1 & E1 & E2).
  destruct (IH s1 HI1 ltac:(lia)) as (s2 & o2 & b & E3 & Ho2 & Hsub & HD).
  exists s2, (o1 ++ o2), b. rewrite E1, E3. cbn [bind]. split; auto. split; [now apply Forall_app|]. split.
  - intros j. rewrite column_app, <- app_assoc. eapply subseq_trans; [|eapply (iter_subseq f n eps); eauto].
    apply subseq_app; [apply subseq_refl|auto].
  - destruct b; auto. destruct HD as (HL & HD). split; auto. intros outs. rewrite E2, HD. now rewrite app_assoc.
Qed.

Lemma add_x_live (s : state) i e : (i < n)%nat -> Live s ->
  exists s' o b, eps_add_x stamp n q eps s (i, e) = Ok (s', o, b) /\ Forall set_ok o /\
    (forall j, subseq (column j o ++ at_ j (events s')) (at_ j (events s) ++ (if Nat.eqb j i then [e] else []))) /\
    (if b then Dead s' else Live s' /\ add f n q eps s (i, e) = Ok (s', o)).
Proof.
  intros Hi (HI & Hc). pose proof HI as [HL HC].
  assert (HI1 : Inv (pushed s i e)) by (apply pushed_inv; auto).
  assert (Hnth : nth_error (events s) i = Some (at_ i (events s))) by (apply nth_error_nth'; lia).
  assert (eps_add_x stamp n q eps s (i, e) =
     if Nat.eqb (count (pushed s i e)) n then eps_process_x stamp n eps (S (total (pushed s i e))) (pushed s i e)
     else do '(s', o) <- add f n q eps s (i, e); Ok (s', o, false)) as Ex.
  { unfold eps_add_x, add. rewrite Hnth. unfold pushed. cbn [count]. cbv zeta.
    destruct (Nat.eqb (match at_ i (events s) with [] => S (count s) | _ :: _ => count s end) n); auto.
    destruct (Nat.ltb q (length (at_ i (events s) ++ [e]))); auto. destruct (erase_beginning _); reflexivity. }
  rewrite Ex. clear Ex.
  destruct (add_cases f n q eps s i e Hi HI) as [(H1 & H2)|[(H1 & H2 & H3)|(H1 & H2 & s2 & H3 & H4 & H5 & H6)]].
  - rewrite H1, Nat.eqb_refl.
    destruct (process_x_ok (S (total (pushed s i e))) (pushed s i e) HI1 ltac:(lia)) as (s' & o & b & E1 & E2 & E3 & E4).
    exists s', o, b. split; auto. split; auto. split.
    + intros j. specialize (E3 j). now rewrite (pushed_at n) in E3 by auto.
    + destruct b; auto. destruct E4 as (E4 & E5). split; auto. rewrite H2. apply E5.
  - pose proof H1 as H1'. apply Nat.eqb_neq in H1'. rewrite H1', H3. cbn [bind]. eexists _, _, _. split; [reflexivity|].
    split; [constructor|]. split; [|split; [split; auto|auto]].
    intros j. rewrite (pushed_at n) by auto. apply subseq_refl.
  - pose proof H1 as H1'. apply Nat.eqb_neq in H1'. rewrite H1', H3. cbn [bind]. eexists _, _, _. split; [reflexivity|].
    split; [constructor|]. split; [|split; [split; auto|auto]].
    + intros j. cbn [column flat_map app]. rewrite H6, (pushed_at n) by auto. destruct (j =? i)%nat.
      * apply (subseq_tl_app []). apply subseq_refl.
      * rewrite app_nil_r. apply subseq_refl.
    + destruct HI1 as [HL1 HC1]. pose proof (cnt_le (events (pushed s i e))). lia.
Qed.

Lemma bad_head_pushed (s : state) i e : (i < n)%nat -> Dead s -> bad_head (events (pushed s i e)).
Proof.
  intros Hi (HI & Hc & v & x & Hv & Hx & Hs). pose proof HI as [HL _].
  apply In_nth_error in Hv as (j & Hj).
  assert (j < length (events s))%nat as Hjl by (apply nth_error_Some; congruence).
  exists (at_ j (events (pushed s i e))), x. split; [|split; auto].
  - apply at_in. cbn. now rewrite upd_length.
  - rewrite (pushed_at n) by auto. rewrite (at_nth_error _ _ _ Hj). destruct v; [discriminate|]. exact Hx.
Qed.

Lemma add_x_dead (s : state) i e : (i < n)%nat -> Dead s ->
  eps_add_x stamp n q eps s (i, e) = Ok (pushed s i e, [], true) /\ Dead (pushed s i e).
Proof.
  intros Hi HD. pose proof HD as (HI & Hc & HB). pose proof HI as [HL HC].
  pose proof (bad_head_pushed s i e Hi HD) as HB'.
  assert (Hnth : nth_error (events s) i = Some (at_ i (events s))) by (apply nth_error_nth'; lia).
  assert (at_ i (events s) <> []) as Hne by (apply (Inv_full n s HI Hc); apply at_in; lia).
  assert (count (pushed s i e) = n) as Hc'.
  { unfold pushed. cbn. destruct (at_ i (events s)); [congruence|auto]. }
  split.
  - unfold eps_add_x. rewrite Hnth. cbv zeta.
    change (match at_ i (events s) with [] => S (count s) | _ :: _ => count s end) with (count (pushed s i e)) at 1.
    rewrite Hc', Nat.eqb_refl. cbn [eps_process_x].
    change (count (mkState _ _)) with (count (pushed s i e)). rewrite Hc', Nat.eqb_refl.
    change (events (mkState _ _)) with (events (pushed s i e)). rewrite older_x_bad by auto. reflexivity.
  - split; [now apply pushed_inv|]. auto.
Qed.

Lemma run_x_dead h : well_indexed n h -> forall s, Dead s ->
  exists s' tr, run_x (eps_add_x stamp n q eps) s h = Ok (s', tr) /\ Dead s' /\ Forall (eq ([], true)) tr /\
    forall j, at_ j (events s') = at_ j (events s) ++ stream j h.
Proof.
  induction h as [|[i e] h IH]; intros HW s HD; cbn [run_x].
  - exists s, []. split; auto. split; auto. split; [constructor|]. intros. now rewrite app_nil_r.
  - assert (i < n)%nat as Hi by (apply (HW i e); cbn; auto).
    destruct (add_x_dead s i e Hi HD) as (-> & HD'). cbn [bind].
    destruct (IH ltac:(intros j x Hx; apply (HW j x); cbn; auto) _ HD') as (s' & tr & -> & HD'' & Htr & Hat). cbn [bind].
    exists s', (([], true) :: tr). split; auto. split; auto. split; [constructor; auto|].
    intros j. rewrite Hat. destruct HD as (HI & _). rewrite (pushed_at n) by auto. rewrite stream_cons, Nat.eqb_sym, <- app_assoc.
    destruct (i =? j)%nat; reflexivity.
Qed.

(** the whole run *)
Lemma run_x_ok h : well_indexed n h -> forall s, Live s ->
  exists s' tr, run_x (eps_add_x stamp n q eps) s h = Ok (s', tr) /\ (Live s' \/ Dead s') /\
    Forall set_ok (emitted tr) /\
    (forall j, subseq (column j (emitted tr) ++ at_ j (events s')) (at_ j (events s) ++ stream j h)) /\
    (Forall (fun c => snd c = false) tr -> Live s' /\ run f n q eps s h = Ok (s', emitted tr)) /\
    (forall tr1 o tr2, tr = tr1 ++ (o, true) :: tr2 -> Dead s' /\ Forall (eq ([], true)) tr2).
Proof.
  induction h as [|[i e] h IH]; intros HW s HS; cbn [run_x].
  - exists s, []. split; auto. split; auto. split; [constructor|]. split; [intros; cbn; rewrite app_nil_r; apply subseq_refl|].
    split; auto. intros [|] ? ? [=].
  - assert (i < n)%nat as Hi by (apply (HW i e); cbn; auto).
    assert (well_indexed n h) as HW' by (intros j x Hx; apply (HW j x); cbn; auto).
    destruct (add_x_live s i e Hi HS) as (s1 & o & b & -> & Ho & Hsub & Hb). cbn [bind].
    assert (forall j, stream j ((i, e) :: h) = (if Nat.eqb j i then [e] else []) ++ stream j h) as Hst.
    { intros j. rewrite stream_cons, Nat.eqb_sym. destruct (j =? i)%nat; reflexivity. }
    destruct b.
    + destruct (run_x_dead h HW' s1 Hb) as (s' & tr & -> & HD & Htr & Hat). cbn [bind].
      assert (emitted tr = []) as Hem. { clear -Htr. induction Htr as [|c tr <- H IH]; cbn; auto. }
      exists s', ((o, true) :: tr). split; auto. split; auto. rewrite emitted_cons, Hem, app_nil_r. split; [exact Ho|]. split; [|split].
      * intros j. rewrite Hat, Hst, !app_assoc. apply subseq_app; [|apply subseq_refl]. apply Hsub.
      * intros HF. inversion HF; subst. discriminate.
      * intros tr1 o' tr2 Etr. split; auto. destruct tr1 as [|c tr1]; injection Etr as ? Etr; subst; auto.
        apply Forall_app in Htr as (_ & Htr). now inversion Htr.
    + destruct Hb as (HS1 & Ha). destruct (IH HW' s1 HS1) as (s' & tr & -> & A1 & A2 & A3 & A4 & A5). cbn [bind].
      exists s', ((o, false) :: tr). split; auto. split; auto. rewrite emitted_cons. cbn [fst]. split; [now apply Forall_app|]. split; [|split].
      * intros j. rewrite column_app, Hst, <- app_assoc.
        eapply subseq_trans; [apply subseq_app; [apply subseq_refl|apply A3]|].
        rewrite !app_assoc. apply subseq_app; [apply Hsub|apply subseq_refl].
      * intros HF. inversion HF; subst. destruct (A4 ltac:(auto)) as (B1 & B2). split; auto.
        cbn [run]. rewrite Ha. cbn [bind]. rewrite B2. reflexivity.
      * intros tr1 o' tr2 Etr. destruct tr1 as [|c tr1]; injection Etr as ? Etr; subst; [discriminate|]. eapply A5; eauto.
Qed.

Lemma live_init : Live (init n).
Proof. split; [apply init_inv|]. cbn. lia. Qed.

(** the first message of input [i] is invalid *)
Lemma first_invalid h i : (i < n)%nat -> well_indexed n h ->
  (exists b r, stream i h = b :: r /\ invalid stamp b) -> (length (stream i h) <= q)%nat ->
  (forall j, (j < n)%nat -> stream j h <> []) ->
  exists s tr, run_x (eps_add_x stamp n q eps) (init n) h = Ok (s, tr) /\ emitted tr = [] /\ Dead s.
Proof.
  intros Hi HW (b & r & Hb & Hinv) Hlen Hall.
  assert (forall p p', h = p ++ p' -> exists s tr, run_x (eps_add_x stamp n q eps) (init n) p = Ok (s, tr) /\ emitted tr = [] /\
     (Dead s \/ (Live s /\ at_ i (events s) = stream i p /\ forall j, (j < n)%nat -> at_ j (events s) = [] -> stream j p = []))) as H.
  { induction p as [|[k e] p IH] using rev_ind; intros p' Ep.
    - exists (init n), []. split; auto. split; auto. right. split; [apply live_init|]. split; [apply init_at|auto].
    - rewrite <- app_assoc in Ep. destruct (IH _ Ep) as (s & tr & Hr & He & HS). clear IH.
      assert (k < n)%nat as Hk by (apply (HW k e); rewrite Ep; apply in_or_app; right; cbn; auto).
      rewrite run_x_app, Hr. cbn [bind run_x].
      destruct HS as [HD|(HL & Hat & Hnil)].
      + destruct (add_x_dead s k e Hk HD) as (-> & HD'). cbn [bind]. eexists _, _. split; [reflexivity|].
        rewrite emitted_app, He. auto.
      + pose proof HL as (HI & Hc). pose proof HI as [HLn _].
        assert (stream i h = stream i p ++ (if Nat.eqb i k then [e] else []) ++ stream i p') as Hsi.
        { rewrite Ep, stream_app. cbn [app]. rewrite stream_cons, Nat.eqb_sym. destruct (i =? k)%nat; reflexivity. }
        assert (length (at_ k (events s) ++ [e]) <= q \/ k <> i)%nat as Hov.
        { destruct (Nat.eq_dec k i) as [->|]; auto. left. rewrite Hat. rewrite Hsi, Nat.eqb_refl in Hlen.
          rewrite !app_length in Hlen |- *. cbn in *. lia. }
        destruct (add_cases f n q eps s k e Hk HI) as [(H1 & H2)|[(H1 & H2 & H3)|(H1 & H2 & s2 & H3 & H4 & H5 & H6)]].
        * (* all inputs have a message: the head of i is invalid *)
          assert (Dead (pushed s k e)) as HD.
          { split; [now apply pushed_inv|]. split; auto.
            assert (at_ i (events (pushed s k e)) <> []) as Hne.
            { apply (Inv_full n (pushed s k e)); auto. { now apply pushed_inv. } apply at_in. cbn. rewrite upd_length. lia. }
            exists (at_ i (events (pushed s k e))), b. split; [|split; auto].
            - apply at_in. cbn. rewrite upd_length. lia.
            - revert Hne. rewrite (pushed_at n) by auto. rewrite Hat. rewrite Hsi in Hb.
              destruct (stream i p) as [|x l]; cbn in *; [|congruence].
              destruct (i =? k)%nat; cbn in *; congruence. }
          assert (eps_add_x stamp n q eps s (k, e) = Ok (pushed s k e, [], true)) as ->.
          { unfold eps_add_x. rewrite (nth_error_nth' _ []) by lia. cbv zeta. fold (at_ k (events s)).
            change (match at_ k (events s) with [] => S (count s) | _ :: _ => count s end) with (count (pushed s k e)) at 1.
            rewrite H1, Nat.eqb_refl. cbn [eps_process_x].
            change (count (mkState _ _)) with (count (pushed s k e)). rewrite H1, Nat.eqb_refl.
            change (events (mkState _ _)) with (events (pushed s k e)). rewrite older_x_bad by apply HD. reflexivity. }
          cbn [bind]. eexists _, _. split; [reflexivity|]. rewrite emitted_app, He. auto.
        * destruct (add_x_live s k e Hk HL) as (s' & o & bb & Ha & _ & _ & HB). rewrite Ha. cbn [bind].
          assert (bb = false /\ s' = pushed s k e /\ o = []) as (-> & -> & ->).
          { revert Ha. unfold eps_add_x. rewrite (nth_error_nth' _ []) by lia. cbv zeta. fold (at_ k (events s)).
            change (match at_ k (events s) with [] => S (count s) | _ :: _ => count s end) with (count (pushed s k e)).
            pose proof H1 as H1'. apply Nat.eqb_neq in H1'. rewrite H1'.
            rewrite (pushed_at n), Nat.eqb_refl in H2 by auto.
            destruct (Nat.ltb_spec q (length (at_ k (events s) ++ [e]))); [lia|]. intros [= <- <- <-]. auto. }
          eexists _, _. split; [reflexivity|]. rewrite emitted_app, He. split; auto. right.
          destruct HB as (HB & _). split; auto. split.
          -- rewrite (pushed_at n), stream_snoc, Hat by auto. reflexivity.
          -- intros j Hj. rewrite (pushed_at n), stream_snoc by auto. intros Hx. apply app_eq_nil in Hx as (Hx1 & Hx2).
             now rewrite (Hnil j Hj Hx1), Hx2.
        * destruct Hov as [Hov|Hki]. { rewrite (pushed_at n), Nat.eqb_refl in H2 by auto. lia. }
          destruct (add_x_live s k e Hk HL) as (s' & o & bb & Ha & _ & _ & HB). rewrite Ha. cbn [bind].
          assert (bb = false /\ s' = s2 /\ o = []) as (-> & -> & ->).
          { revert Ha. unfold eps_add_x. unfold add in H3. rewrite (nth_error_nth' _ []) in H3 |- * by lia. cbv zeta in *. fold (at_ k (events s)) in *.
            change (match at_ k (events s) with [] => S (count s) | _ :: _ => count s end) with (count (pushed s k e)) in *.
            pose proof H1 as H1'. apply Nat.eqb_neq in H1'. rewrite H1' in *.
            rewrite (pushed_at n), Nat.eqb_refl in H2 by auto.
            destruct (Nat.ltb_spec q (length (at_ k (events s) ++ [e]))); [|lia].
            destruct (erase_beginning (at_ k (events s) ++ [e])). injection H3 as <-. intros [= <- <- <-]. auto. }
          eexists _, _. split; [reflexivity|]. rewrite emitted_app, He. split; auto. right.
          destruct HB as (HB & _). split; auto. split.
          -- rewrite H6, (pushed_at n), stream_snoc, Hat by auto. apply not_eq_sym, Nat.eqb_neq in Hki. now rewrite Hki.
          -- intros j Hj. rewrite H6, stream_snoc. rewrite (pushed_at n) by auto.
             destruct (Nat.eqb_spec j k) as [->|Hjk].
             ++ rewrite (pushed_at n), Nat.eqb_refl, app_length in H2 by auto. cbn in H2.
                assert (q > 0)%nat. { rewrite Hb in Hlen. cbn in Hlen. lia. }
                destruct (at_ k (events s)) as [|x [|y l]]; cbn in *; try lia; discriminate.
             ++ rewrite !app_nil_r. auto. }
  destruct (H h [] ltac:(now rewrite app_nil_r)) as (s & tr & Hr & He & HS). exists s, tr. split; auto. split; auto.
  destruct HS as [HD|((HI & Hc) & _ & Hnil)]; auto. exfalso. apply Hc. destruct HI as [HL HC]. rewrite HC, <- HL.
  apply cnt_full. intros v Hv ->. apply In_nth_error in Hv as (j & Hj).
  assert (j < n)%nat as Hjn by (rewrite <- HL; apply nth_error_Some; congruence).
  apply (Hall j Hjn). apply Hnil; auto. unfold at_. erewrite nth_error_nth; eauto.
Qed.
End P.
