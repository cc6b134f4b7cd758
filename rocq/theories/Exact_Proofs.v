From Coq Require Import List Arith ZArith Lia Bool Sorted Permutation.
From Verif Require Import Base Trace PermTac Exact_Model Exact_Spec.
Import ListNotations.
Local Open Scope Z_scope.

Section Proofs.
Context {E : Type} (stamp : E -> Z).
Variable n : nat.
Variable q : nat.

Notation tuple := (list (option E)).
Notation add := (add stamp n q).
Notation run := (run stamp n q).
Definition keysorted (m : list (Z * tuple)) := StronglySorted (fun a b => fst a < fst b) m.

Lemma put_split k i e m :
  keysorted m ->
  exists a b t0,
    put n k i e m = (a ++ (k, upd i (Some e) t0) :: b, upd i (Some e) t0) /\
    (forall x, In x a -> fst x < k) /\ (forall x, In x b -> k < fst x) /\
    ((m = a ++ b /\ t0 = empty_tuple n) \/ m = a ++ (k, t0) :: b).
Proof.
  induction 1 as [|[k' t'] m HS IH HF]; cbn.
  - exists [], [], (empty_tuple n). cbn. repeat split; auto; tauto.
  - rewrite Forall_forall in HF. cbn in HF. destruct (Z.ltb_spec k k').
    + exists [], ((k', t') :: m), (empty_tuple n). cbn. repeat split; auto; try tauto.
      intros x [<-|Hx]; auto. apply HF in Hx. lia.
    + destruct (Z.eqb_spec k k') as [->|Hne].
      * exists [], m, t'. cbn. repeat split; auto; tauto.
      * destruct IH as (a & b & t0 & Hp & Ha & Hb & Hm). rewrite Hp.
        exists ((k', t') :: a), b, t0. cbn. repeat split; auto.
        -- intros x [<-|Hx]; auto. cbn; lia.
        -- destruct Hm as [[-> ->]| ->]; auto.
Qed.

Lemma split_upper_bound_app k a b :
  (forall x, In x a -> fst x <= k) -> (forall x, In x b -> k < fst x) ->
  split_upper_bound k (a ++ b) = (a, b) :> list (Z * tuple) * list (Z * tuple).
Proof.
  induction a as [|[k' t'] a IH]; cbn; intros Ha Hb.
  - destruct b as [|[k'' t''] b]; cbn; auto.
    specialize (Hb (k'', t'') (or_introl eq_refl)); cbn in Hb.
    destruct (Z.leb_spec k'' k); auto; lia.
  - specialize (Ha (k', t') (or_introl eq_refl)) as Hk; cbn in Hk.
    destruct (Z.leb_spec k' k); [|lia]. rewrite IH; auto.
Qed.

Lemma filter_id {A} (p : A -> bool) l : (forall x, In x l -> p x = true) -> filter p l = l.
Proof. induction l as [|x l IH]; cbn; auto. intros H. rewrite H; auto. f_equal; auto. Qed.

Lemma erase_mid k a t b :
  (forall x, In x a -> fst x < k) -> (forall x, In x b -> k < fst x) ->
  erase k (a ++ (k, t) :: b) = a ++ b :> list (Z * tuple).
Proof.
  intros Ha Hb. unfold erase. rewrite filter_app; cbn. rewrite Z.eqb_refl; cbn.
  rewrite !filter_id; auto.
  - intros x Hx. apply Hb in Hx. destruct (Z.eqb_spec (fst x) k); auto; lia.
  - intros x Hx. apply Ha in Hx. destruct (Z.eqb_spec (fst x) k); auto; lia.
Qed.

Lemma keysorted_app a b : keysorted (a ++ b) <->
  keysorted a /\ keysorted b /\ (forall x y, In x a -> In y b -> fst x < fst y).
Proof. apply StronglySorted_app. Qed.

Lemma keysorted_mid k a t b :
  keysorted (a ++ b) -> (forall x, In x a -> fst x < k) -> (forall x, In x b -> k < fst x) ->
  keysorted (a ++ (k, t) :: b).
Proof.
  intros HS Ha Hb. apply keysorted_app in HS as (H1 & H2 & H3). apply keysorted_app.
  split; auto. split.
  - constructor; auto. now apply Forall_forall.
  - intros x y Hx [<-|Hy]; auto.
Qed.

Lemma keysorted_unmid x a b : keysorted (a ++ x :: b) -> keysorted (a ++ b).
Proof.
  intros HS. apply keysorted_app in HS as (H1 & H2 & H3). inversion H2; subst. apply keysorted_app.
  split; auto. split; auto. intros; apply H3; cbn; auto.
Qed.

(** ** full *)
Lemma full_some t s : full t = Some s <-> t = map (@Some E) s.
Proof.
  revert s; induction t as [|[e|] t IH]; intros s; cbn.
  - split; [intros [= <-]; auto|]. destruct s; cbn; congruence.
  - destruct (full t) as [l|] eqn:Hf.
    + split; [intros [= <-]; cbn; f_equal; now apply IH|].
      destruct s as [|e' s]; cbn; [congruence|]. intros [= -> Ht]. f_equal. f_equal.
      apply IH in Ht. congruence.
    + split; [congruence|]. destruct s as [|e' s]; cbn; [congruence|]. intros [= -> Ht].
      apply IH in Ht. congruence.
  - split; [congruence|]. destruct s; cbn; congruence.
Qed.

Lemma full_none t : full t = None <-> In None (t : tuple).
Proof.
  induction t as [|[e|] t IH]; cbn.
  - split; [congruence|tauto].
  - destruct (full t).
    + split; [discriminate|intros [H|H]; [discriminate|apply IH in H; discriminate]].
    + split; [intros _; right; apply IH; auto|auto].
  - split; auto.
Qed.

(** ** the state invariant *)
Definition tuple_ok (h : list (nat * E)) (kt : Z * tuple) : Prop :=
  length (snd kt) = n /\ full (snd kt) = None /\
  forall j e, nth_error (snd kt) j = Some (Some e) -> stamp e = fst kt /\ In (j, e) h.

Definition Inv (h : list (nat * E)) (s : state E) : Prop :=
  keysorted (tuples s) /\ (forall kt, In kt (tuples s) -> tuple_ok h kt) /\
  ((0 < q)%nat -> (length (tuples s) <= q)%nat).

(** the tuple after storing: shape facts *)
Lemma nth_error_upd {A} i j (x : A) l :
  nth_error (upd i x l) j = if Nat.eqb i j then (if Nat.ltb i (length l) then Some x else None) else nth_error l j.
Proof.
  revert i j; induction l as [|y l IH]; intros [|i] [|j]; cbn; auto.
  - destruct (Nat.eqb i j); reflexivity.
  - rewrite IH. cbn. destruct (Nat.eqb i j); auto.
Qed.

Lemma nth_error_repeat_inv {A} (x y : A) m j : nth_error (repeat x m) j = Some y -> y = x.
Proof. intros H. apply nth_error_In, repeat_spec in H. auto. Qed.

Lemma stored_ok h i e t0 :
  (i < n)%nat ->
  (t0 = empty_tuple n \/ tuple_ok h (stamp e, t0)) ->
  length (upd i (Some e) t0) = n /\
  (forall j x, nth_error (upd i (Some e) t0) j = Some (Some x) -> stamp x = stamp e /\ In (j, x) (h ++ [(i, e)])).
Proof.
  intros Hi Ht.
  assert (Hlen : length t0 = n).
  { destruct Ht as [->|(H & _)]; [apply repeat_length|exact H]. }
  rewrite upd_length. split; auto. intros j x Hj. rewrite nth_error_upd in Hj.
  destruct (Nat.eqb_spec i j) as [->|Hne].
  - destruct (Nat.ltb_spec j (length t0)); [|lia]. injection Hj as <-.
    split; auto. apply in_or_app; cbn; auto.
  - destruct Ht as [->|(_ & _ & H)].
    + apply nth_error_repeat_inv in Hj. congruence.
    + apply H in Hj as [H1 H2]. split; auto. apply in_or_app; auto.
Qed.

(** ** exact description of one addition *)
Inductive step_desc (s : state E) (i : nat) (e : E) : state E -> list (out E) -> Prop :=
| step_intro a b t0 s' os :
    (forall x, In x a -> fst x < stamp e) -> (forall x, In x b -> stamp e < fst x) ->
    ((tuples s = a ++ b /\ t0 = empty_tuple n) \/ tuples s = a ++ (stamp e, t0) :: b) ->
    (let t := upd i (Some e) t0 in
     let m := a ++ (stamp e, t) :: b in
     (exists ss, full t = Some ss /\ s' = mkState b (stamp e) /\ os = Signal ss :: drops a) \/
     (full t = None /\ (q = 0 \/ length m <= q)%nat /\ s' = mkState m (last_signal_time s) /\ os = []) \/
     (full t = None /\ (0 < q)%nat /\ length m = S q /\ s' = mkState (tl m) (last_signal_time s) /\
      os = drops (firstn 1 m))) ->
    step_desc s i e s' os.

Lemma add_desc h s i e :
  (i < n)%nat -> Inv h s -> step_desc s i e (fst (add s (i, e))) (snd (add s (i, e))).
Proof.
  intros Hi (HS & HT & HB).
  destruct (put_split (stamp e) i e (tuples s) HS) as (a & b & t0 & Hput & Ha & Hb & Hm).
  unfold Exact_Model.add. rewrite Hput.
  assert (Ht0 : t0 = empty_tuple n \/ tuple_ok h (stamp e, t0)).
  { destruct Hm as [[_ ->]|Hm]; auto. right. apply HT. rewrite Hm. apply in_or_app; cbn; auto. }
  destruct (stored_ok h i e t0 Hi Ht0) as [Hlen Hslots].
  apply (step_intro s i e a b t0); auto. cbv zeta.
  set (t := upd i (Some e) t0) in *.
  assert (Hsz : (0 < q)%nat -> (length (a ++ (stamp e, t) :: b) <= S q)%nat /\ (length b <= q)%nat).
  { intros Hq. specialize (HB Hq). rewrite app_length; cbn.
    destruct Hm as [[Hm _]|Hm]; rewrite Hm, app_length in HB; cbn in HB; lia. }
  unfold checkTuple. destruct (full t) as [ss|] eqn:Hf.
  - left. exists ss. split; auto.
    destruct ss as [|e0 rest].
    { apply full_some in Hf. rewrite Hf in Hlen. cbn in Hlen. lia. }
    assert (He0 : stamp e0 = stamp e).
    { apply (Hslots 0%nat e0). apply full_some in Hf. rewrite Hf. reflexivity. }
    cbn [tuples]. rewrite He0. rewrite erase_mid by auto.
    rewrite split_upper_bound_app; auto. 2:{ intros x Hx. specialize (Ha x Hx). lia. }
    cbn [tuples].
    destruct (Nat.ltb_spec 0 q) as [Hq|Hq]; cbn [andb]; auto.
    destruct (Nat.ltb_spec q (length b)); auto. destruct (Hsz Hq); lia.
  - right. cbn [tuples last_signal_time].
    destruct (Nat.ltb_spec 0 q) as [Hq|Hq]; cbn [andb].
    + destruct (Nat.ltb_spec q (length (a ++ (stamp e, t) :: b))) as [Hlt|Hge].
      * right. destruct (Hsz Hq). repeat split; auto; try lia.
        -- cbn [fst]. f_equal. replace (length _ - q)%nat with 1%nat by lia. reflexivity.
        -- cbn [snd app]. replace (length _ - q)%nat with 1%nat by lia. reflexivity.
      * left. repeat split; auto.
    + left. repeat split; auto. left; lia.
Qed.

Lemma tuple_ok_mono h h' kt : (forall x, In x h -> In x h') -> tuple_ok h kt -> tuple_ok h' kt.
Proof.
  intros Hh (H1 & H2 & H3). repeat split; auto; apply H3 in H as [? ?]; auto.
Qed.

Lemma add_inv h s i e :
  (i < n)%nat -> Inv h s -> Inv (h ++ [(i, e)]) (fst (add s (i, e))).
Proof.
  intros Hi HI. pose proof (add_desc h s i e Hi HI) as HD.
  destruct HI as (HS & HT & HB).
  inversion HD as [a b t0 s' os Ha Hb Hm Hcase Hs' Hos]. clear HD.
  assert (Ht0 : t0 = empty_tuple n \/ tuple_ok h (stamp e, t0)).
  { destruct Hm as [[_ ->]|Hm]; auto. right. apply HT. rewrite Hm. apply in_or_app; cbn; auto. }
  destruct (stored_ok h i e t0 Hi Ht0) as [Hlen Hslots]. cbv zeta in Hcase.
  set (t := upd i (Some e) t0) in *.
  assert (HSab : keysorted (a ++ b)).
  { destruct Hm as [[Hm _]|Hm]; rewrite Hm in HS; auto. now apply keysorted_unmid in HS. }
  assert (Hab : forall x, In x (a ++ b) -> tuple_ok (h ++ [(i, e)]) x).
  { intros x Hx. apply (tuple_ok_mono h). { intros; apply in_or_app; auto. }
    apply HT. destruct Hm as [[Hm _]|Hm]; rewrite Hm; auto.
    apply in_app_or in Hx as [Hx|Hx]; apply in_or_app; cbn; auto. }
  assert (Hm1 : keysorted (a ++ (stamp e, t) :: b)) by now apply keysorted_mid.
  destruct Hcase as [(ss & Hf & Hs & _)|[(Hf & Hq & Hs & _)|(Hf & Hq & Hl & Hs & _)]]; rewrite Hs.
  - split; [|split]; cbn [tuples].
    + apply keysorted_app in HSab; tauto.
    + intros kt Hkt. apply Hab, in_or_app; auto.
    + intros Hq. specialize (HB Hq).
      destruct Hm as [[Hm _]|Hm]; rewrite Hm, app_length in HB; cbn in HB; lia.
  - assert (Hall : forall x, In x (a ++ (stamp e, t) :: b) -> tuple_ok (h ++ [(i, e)]) x).
    { intros x Hx. apply in_app_or in Hx as [Hx|[<-|Hx]].
      - apply Hab, in_or_app; auto.
      - repeat split; cbn; auto; apply Hslots in H; tauto.
      - apply Hab, in_or_app; auto. }
    split; [exact Hm1|]. split; [exact Hall|]. cbn [tuples]. intros; lia.
  - assert (Hall : forall x, In x (a ++ (stamp e, t) :: b) -> tuple_ok (h ++ [(i, e)]) x).
    { intros x Hx. apply in_app_or in Hx as [Hx|[<-|Hx]].
      - apply Hab, in_or_app; auto.
      - repeat split; cbn; auto; apply Hslots in H; tauto.
      - apply Hab, in_or_app; auto. }
    cbn [tuples]. destruct (a ++ (stamp e, t) :: b) as [|x m]; [cbn in Hl; lia|].
    cbn [tl tuples]. split; [now inversion Hm1|]. split.
    + intros; apply Hall; cbn; auto.
    + intros _. cbn in Hl. cbn [tuples]. lia.
Qed.

(** ** runs *)
Lemma run_app s h1 h2 :
  run s (h1 ++ h2) =
  (fst (run (fst (run s h1)) h2), snd (run s h1) ++ snd (run (fst (run s h1)) h2)).
Proof.
  revert s; induction h1 as [|x h1 IH]; intros s; cbn.
  - now destruct (run s h2).
  - destruct (add s x) as [s1 o1]. rewrite IH. destruct (run s1 h1) as [s2 o2]; cbn.
    now rewrite app_assoc.
Qed.

Lemma run_snoc s h x :
  run s (h ++ [x]) =
  (fst (add (fst (run s h)) x), snd (run s h) ++ snd (add (fst (run s h)) x)).
Proof.
  rewrite run_app; cbn. destruct (add (fst (run s h)) x) as [s1 o1]; cbn. now rewrite app_nil_r.
Qed.

Lemma well_indexed_app (h1 h2 : list (nat * E)) :
  well_indexed n (h1 ++ h2) <-> well_indexed n h1 /\ well_indexed n h2.
Proof.
  unfold well_indexed. split.
  - intros H; split; intros i e Hi; eapply H, in_or_app; eauto.
  - intros [H1 H2] i e Hi. apply in_app_or in Hi as [Hi|Hi]; eauto.
Qed.

Lemma run_inv h : well_indexed n h -> Inv h (fst (run init h)).
Proof.
  induction h as [|[i e] h IH] using rev_ind; intros HW.
  - cbn. split; [apply SSorted_nil|]. split; [intros kt []|cbn; lia].
  - apply well_indexed_app in HW as [HW Hi]. rewrite run_snoc; cbn [fst].
    apply add_inv; auto. eapply Hi; cbn; auto.
Qed.

Lemma signals_app (a b : list (out E)) : signals (a ++ b) = signals a ++ signals b.
Proof. unfold signals. now rewrite flat_map_app. Qed.
Lemma dropped_app (a b : list (out E)) : dropped (a ++ b) = dropped a ++ dropped b.
Proof. unfold dropped. now rewrite flat_map_app. Qed.
Lemma signals_drops r : signals (@drops E r) = [].
Proof. unfold drops. induction r; cbn; auto. Qed.
Lemma dropped_drops r : dropped (@drops E r) = map snd r.
Proof. unfold drops. induction r; cbn; auto. now f_equal. Qed.

Lemma signals_signal x (os : list (out E)) : signals (Signal x :: os) = x :: signals os.
Proof. reflexivity. Qed.
Lemma dropped_signal x (os : list (out E)) : dropped (Signal x :: os) = dropped os.
Proof. reflexivity. Qed.

(** the sets signalled by one addition *)
Lemma add_signals h s i e :
  (i < n)%nat -> Inv h s ->
  forall ss, In ss (signals (snd (add s (i, e)))) ->
    matching_set stamp n (h ++ [(i, e)]) (stamp e) ss /\ nth_error ss i = Some e /\
    (forall kt, In kt (tuples (fst (add s (i, e)))) -> stamp e < fst kt).
Proof.
  intros Hi HI ss Hss. pose proof (add_desc h s i e Hi HI) as HD.
  destruct HI as (HS & HT & HB).
  inversion HD as [a b t0 s' os Ha Hb Hm Hcase Hs' Hos]. clear HD.
  assert (Ht0 : t0 = empty_tuple n \/ tuple_ok h (stamp e, t0)).
  { destruct Hm as [[_ ->]|Hm]; auto. right. apply HT. rewrite Hm. apply in_or_app; cbn; auto. }
  destruct (stored_ok h i e t0 Hi Ht0) as [Hlen Hslots]. cbv zeta in Hcase.
  destruct Hcase as [(ss' & Hf & Hs & Ho)|[(Hf & Hq & Hs & Ho)|(Hf & Hq & Hl & Hs & Ho)]];
    rewrite Ho in Hss; rewrite ?signals_signal, ?signals_drops in Hss.
  - destruct Hss as [->|[]]. rewrite Hs. apply full_some in Hf. rewrite Hf in Hlen, Hslots.
    rewrite map_length in Hlen. repeat split; auto.
    + intros. apply (Hslots j); rewrite nth_error_map, H; reflexivity.
    + apply (Hslots j); rewrite nth_error_map, H; reflexivity.
    + assert (Hni : nth_error (upd i (Some e) t0) i = Some (Some e)).
      { rewrite nth_error_upd, Nat.eqb_refl. destruct (Nat.ltb_spec i (length t0)); auto.
        rewrite <- (upd_length i (Some e)), Hf, map_length in H. lia. }
      rewrite Hf, nth_error_map in Hni. destruct (nth_error ss i); cbn in Hni; congruence.
  - destruct Hss.
  - destruct Hss.
Qed.

Lemma matching_set_mono h h' t ss :
  (forall x, In x h -> In x h') -> matching_set stamp n h t ss -> matching_set stamp n h' t ss.
Proof. intros Hh [H1 H2]. split; auto. intros j e Hj. apply H2 in Hj as [? ?]; auto. Qed.

Lemma run_signals h :
  well_indexed n h -> forall ss, In ss (signals (snd (run init h))) ->
  exists t, matching_set stamp n h t ss.
Proof.
  induction h as [|[i e] h IH] using rev_ind; intros HW ss Hss; [destruct Hss|].
  apply well_indexed_app in HW as [HW Hi]. rewrite run_snoc in Hss; cbn [snd] in Hss.
  rewrite signals_app in Hss. apply in_app_or in Hss as [Hss|Hss].
  - destruct (IH HW ss Hss) as [t Ht]. exists t. eapply matching_set_mono; [|exact Ht].
    intros; apply in_or_app; auto.
  - exists (stamp e). eapply (add_signals h); eauto. { eapply Hi; cbn; auto. } now apply run_inv.
Qed.

(** ** accounting *)
Definition pending (s : state E) : list (nat * E) := flat_map (fun kt => tagged (snd kt)) (tuples s).

Lemma tagged_upd i j e (t : tuple) :
  (i < length t)%nat ->
  exists R, Permutation (tagged_from j (upd i (Some e) t)) ((j + i, e)%nat :: R) /\ Permutation (tagged_from j t)
      (match nth_error t i with Some (Some e0) => [(j + i, e0)%nat] | _ => [] end ++ R).
Proof.
  revert i j; induction t as [|o t IH]; intros i j Hi; cbn in Hi; [lia|].
  destruct i as [|i]; cbn.
  - rewrite Nat.add_0_r. exists (tagged_from (S j) t). split; auto. destruct o; cbn; auto.
  - destruct (IH i (S j)) as (R & H1 & H2); [lia|].
    replace (S j + i)%nat with (j + S i)%nat in * by lia.
    destruct o as [x|].
    + exists ((j, x) :: R). split.
      * rewrite H1. apply perm_swap.
      * rewrite H2. apply Permutation_middle.
    + exists R. auto.
Qed.

Lemma tagged_repeat_none j m : tagged_from j (repeat (@None E) m) = [].
Proof. revert j; induction m; cbn; auto. Qed.

Lemma nth_error_split_in (h : list (nat * E)) x : In x h -> exists a b, h = a ++ x :: b.
Proof. intros H. now apply in_split. Qed.

Lemma replaced_mono h x y : replaced_in stamp h x -> replaced_in stamp (h ++ y) x.
Proof.
  intros (h1 & h2 & h3 & e & -> & He). exists h1, h2, (h3 ++ y), e. split; auto.
  now rewrite <- !app_assoc; cbn; rewrite <- !app_assoc.
Qed.

Lemma accounting h :
  well_indexed n h ->
  exists replaced,
    Permutation h
      (flat_map tagged_set (signals (snd (run init h))) ++
       flat_map tagged (dropped (snd (run init h))) ++
       pending (fst (run init h)) ++ replaced) /\ (forall x, In x replaced -> replaced_in stamp h x).
Proof.
  induction h as [|[i e] h IH] using rev_ind; intros HW.
  - exists []. cbn. split; auto. tauto.
  - apply well_indexed_app in HW as [HW Hi0]. specialize (IH HW) as (R & HP & HR).
    assert (Hi : (i < n)%nat) by (eapply Hi0; cbn; auto).
    rewrite run_snoc; cbn [fst snd].
    pose proof (run_inv h HW) as HI. set (s := fst (run init h)) in *.
    pose proof (add_desc h s i e Hi HI) as HD. destruct HI as (HS & HT & HB).
    inversion HD as [a b t0 s' os Ha Hb Hm Hcase Hs' Hos]. clear HD.
    assert (Ht0 : t0 = empty_tuple n \/ tuple_ok h (stamp e, t0)).
    { destruct Hm as [[_ ->]|Hm]; auto. right. apply HT. rewrite Hm. apply in_or_app; cbn; auto. }
    assert (Hlt : length t0 = n).
    { destruct Ht0 as [->|(H & _)]; [apply repeat_length|exact H]. }
    destruct (tagged_upd i 0 e t0) as (R1 & HR1 & HR2); [lia|]. cbn [Nat.add] in HR1, HR2.
    set (t := upd i (Some e) t0) in *.
    set (pa := flat_map (fun kt => tagged (snd kt)) a). set (pb := flat_map (fun kt => tagged (snd kt)) b).
    assert (Hnew : exists R2, Permutation (pending s ++ [(i, e)]) (pa ++ tagged t ++ pb ++ R2) /\ (forall x, In x R2 -> replaced_in stamp (h ++ [(i, e)]) x)).
    { assert (Hpend : Permutation (pending s) (pa ++ tagged t0 ++ pb)).
      { unfold pending. destruct Hm as [[Hm ->]|Hm]; rewrite Hm; rewrite !flat_map_app; cbn.
        - unfold tagged, empty_tuple. rewrite tagged_repeat_none. reflexivity.
        - reflexivity. }
      exists (match nth_error t0 i with Some (Some e0) => [(i, e0)] | _ => [] end). split.
      - rewrite Hpend. unfold tagged. rewrite HR1, HR2.
        destruct (nth_error t0 i) as [[e0|]|]; perm.
      - intros x Hx. destruct (nth_error t0 i) as [[e0|]|] eqn:He0; [|destruct Hx|destruct Hx].
        destruct Hx as [<-|[]].
        destruct Ht0 as [->|(_ & _ & Hok)].
        { apply nth_error_repeat_inv in He0. congruence. }
        cbn in Hok. apply Hok in He0 as [Hst Hin].
        apply in_split in Hin as (h1 & h2 & Hh).
        exists h1, h2, [], e. split; [|cbn; auto]. cbn [fst]. rewrite Hh. rewrite <- app_assoc. reflexivity. }
    destruct Hnew as (R2 & HP2 & HR2').
    exists (R2 ++ R). split.
    2:{ intros x Hx. apply in_app_or in Hx as [Hx|Hx]; auto. apply replaced_mono; auto. }
    eapply Permutation_trans; [apply Permutation_app_tail; exact HP|]. cbv zeta in Hcase.
    rewrite signals_app, dropped_app, !flat_map_app.
    assert (Hgoal : Permutation (pa ++ tagged t ++ pb)
              (flat_map tagged_set (signals (snd (add s (i, e)))) ++ flat_map tagged (dropped (snd (add s (i, e)))) ++ pending (fst (add s (i, e))))).
    { destruct Hcase as [(ss & Hf & Hs & Ho)|[(Hf & Hq & Hs & Ho)|(Hf & Hq & Hl & Hs & Ho)]]; rewrite Hs, Ho.
      - rewrite signals_signal, dropped_signal, signals_drops, dropped_drops. cbn. rewrite app_nil_r.
        apply full_some in Hf. unfold tagged_set. rewrite <- Hf. unfold pending; cbn [tuples].
        fold pb. rewrite flat_map_concat_map, map_map, <- flat_map_concat_map. fold pa.
        rewrite !app_assoc. apply Permutation_app_tail, Permutation_app_comm.
      - cbn. unfold pending; cbn [tuples]. rewrite flat_map_app; cbn. reflexivity.
      - rewrite signals_drops, dropped_drops. cbn. unfold pending; cbn [tuples].
        transitivity (flat_map (fun kt : Z * tuple => tagged (snd kt)) (a ++ (stamp e, t) :: b)).
        { rewrite flat_map_app; cbn. reflexivity. }
        destruct (a ++ (stamp e, t) :: b) as [|x m]; [cbn in Hl; lia|]. cbn. rewrite app_nil_r. reflexivity. }
    set (S0 := flat_map tagged_set (signals (snd (run init h)))) in *.
    set (D0 := flat_map tagged (dropped (snd (run init h)))) in *.
    clear -HP2 Hgoal.
    assert (HP3 : Permutation ((S0 ++ D0 ++ pending s ++ R) ++ [(i, e)]) (S0 ++ D0 ++ (pending s ++ [(i, e)]) ++ R)) by perm.
    eapply Permutation_trans; [exact HP3|].
    rewrite HP2.
    transitivity (S0 ++ D0 ++ (pa ++ tagged t ++ pb) ++ R2 ++ R); [perm|].
    rewrite Hgoal. perm.
Qed.

(** ** time order *)
Lemma in_order_prefix h x : in_order stamp n (h ++ x) -> in_order stamp n h.
Proof.
  intros H i Hi. specialize (H i Hi). rewrite stream_app in H.
  apply StronglySorted_app in H. tauto.
Qed.

Lemma in_order_last h i e e' :
  (i < n)%nat -> in_order stamp n (h ++ [(i, e)]) -> In (i, e') h -> stamp e' < stamp e.
Proof.
  intros Hi HO He'. specialize (HO i Hi). rewrite stream_app in HO.
  apply StronglySorted_app in HO as (_ & _ & HO). apply HO; [now apply stream_in|].
  rewrite stream_cons, Nat.eqb_refl. cbn; auto.
Qed.

Lemma matching_set_stamp h t ss : (0 < n)%nat -> matching_set stamp n h t ss -> set_stamp stamp ss = t.
Proof.
  intros Hn [Hl H]. destruct ss as [|e ss]; [cbn in Hl; lia|]. cbn.
  apply (H 0%nat e). reflexivity.
Qed.

Lemma matching_set_slot h t ss i :
  (i < n)%nat -> matching_set stamp n h t ss -> exists e, nth_error ss i = Some e /\ In (i, e) h /\ stamp e = t.
Proof.
  intros Hi [Hl H]. destruct (nth_error ss i) as [e|] eqn:He.
  - exists e. split; auto.
  - apply nth_error_None in He. lia.
Qed.

Lemma signals_before_new h i e ss :
  (i < n)%nat -> in_order stamp n (h ++ [(i, e)]) -> well_indexed n h ->
  In ss (signals (snd (run init h))) -> set_stamp stamp ss < stamp e.
Proof.
  intros Hi HO HW Hss. destruct (run_signals h HW ss Hss) as [t Ht].
  rewrite (matching_set_stamp h t ss); auto; [|lia].
  destruct (matching_set_slot h t ss i Hi Ht) as (e' & _ & Hin & <-).
  eapply in_order_last; eauto.
Qed.

Lemma add_signals_at_most_one h s i e :
  (i < n)%nat -> Inv h s -> (length (signals (snd (add s (i, e)))) <= 1)%nat.
Proof.
  intros Hi HI. pose proof (add_desc h s i e Hi HI) as HD.
  inversion HD as [a b t0 s' os Ha Hb Hm Hcase Hs' Hos].
  destruct Hcase as [(ss' & Hf & Hs & Ho)|[(Hf & Hq & Hs & Ho)|(Hf & Hq & Hl & Hs & Ho)]];
    rewrite Ho; rewrite ?signals_signal, ?signals_drops; cbn; lia.
Qed.

Lemma signals_increasing h :
  well_indexed n h -> in_order stamp n h ->
  StronglySorted (fun a b => set_stamp stamp a < set_stamp stamp b) (signals (snd (run init h))).
Proof.
  induction h as [|[i e] h IH] using rev_ind; intros HW HO; [constructor|].
  apply well_indexed_app in HW as [HW Hi0]. assert (Hi : (i < n)%nat) by (eapply Hi0; cbn; auto).
  rewrite run_snoc; cbn [snd]. rewrite signals_app.
  pose proof (run_inv h HW) as HI.
  pose proof (add_signals_at_most_one h (fst (run init h)) i e Hi HI) as H1.
  pose proof (add_signals h (fst (run init h)) i e Hi HI) as H2.
  apply StronglySorted_app. split; [apply IH; eauto using in_order_prefix|]. split.
  - destruct (signals (snd (add _ _))) as [|x [|y l]]; cbn in H1; try lia; repeat constructor.
  - intros x y Hx Hy. apply H2 in Hy as (Hy & _ & _).
    rewrite (matching_set_stamp _ _ y) with (2 := Hy) by lia.
    eapply signals_before_new; eauto.
Qed.
End Proofs.

(** ** completeness, unbounded queue *)
Section Complete.
Context {E : Type} (stamp : E -> Z).
Variable n : nat.
Notation add := (add stamp n 0).
Notation run := (run stamp n 0).
Notation tuple := (list (option E)).

Definition CInv (h : list (nat * E)) (s : state E) (sig : list (list E)) : Prop :=
  (forall j e, In (j, e) h ->
     (exists ss, In ss sig /\ stamp e <= set_stamp stamp ss) \/
     (exists t, In (stamp e, t) (tuples s) /\ nth_error t j = Some (Some e))) /\
  (forall ss kt, In ss sig -> In kt (tuples s) -> set_stamp stamp ss < fst kt).

Lemma set_stamp_full h s i e ss :
  (i < n)%nat -> Inv stamp n 0 h s -> In ss (signals (snd (add s (i, e)))) -> set_stamp stamp ss = stamp e.
Proof.
  intros Hi HI Hss. destruct (add_signals stamp n 0 h s i e Hi HI ss Hss) as (H & _ & _).
  apply (matching_set_stamp stamp n (h ++ [(i, e)]) (stamp e) ss); [lia|exact H].
Qed.

Lemma run_cinv h :
  well_indexed n h -> in_order stamp n h ->
  CInv h (fst (run init h)) (signals (snd (run init h))).
Proof.
  induction h as [|[i e] h IH] using rev_ind; intros HW HO.
  - split; cbn; tauto.
  - apply well_indexed_app in HW as [HW Hi0]. assert (Hi : (i < n)%nat) by (eapply Hi0; cbn; auto).
    specialize (IH HW (in_order_prefix _ _ _ _ HO)). destruct IH as [IH1 IH2].
    rewrite run_snoc; cbn [snd fst]. rewrite signals_app.
    pose proof (run_inv stamp n 0 h HW) as HI. set (s := fst (run init h)) in *.
    pose proof (fun ss => signals_before_new stamp n 0 h i e ss Hi HO HW) as Hbefore.
    pose proof (fun ss => set_stamp_full h s i e ss Hi HI) as Hstamp.
    pose proof (add_desc stamp n 0 h s i e Hi HI) as HD. destruct HI as (HS & HT & HB).
    inversion HD as [a b t0 s' os Ha Hb Hm Hcase Hs' Hos]. clear HD.
    assert (Hlt : length t0 = n).
    { destruct Hm as [[_ ->]|Hm]; [apply repeat_length|]. apply (HT (stamp e, t0)). rewrite Hm.
      apply in_or_app; cbn; auto. }
    cbv zeta in Hcase. set (t := upd i (Some e) t0) in *.
    assert (Hold : forall kt, In kt (tuples s) -> In kt a \/ In kt b \/ (tuples s = a ++ (stamp e, t0) :: b /\ kt = (stamp e, t0))).
    { intros kt Hkt. destruct Hm as [[Hm _]|Hm]; rewrite Hm in Hkt.
      - apply in_app_or in Hkt. tauto.
      - apply in_app_or in Hkt as [Hkt|[Hkt|Hkt]]; auto. }
    assert (Hab : forall kt, In kt a \/ In kt b -> In kt (tuples s)).
    { intros kt Hkt. destruct Hm as [[Hm _]|Hm]; rewrite Hm; apply in_or_app; cbn; tauto. }
    assert (Hold_e : forall x, In (i, x) h -> stamp x < stamp e) by (intros; eapply in_order_last; eauto).
    destruct Hcase as [(ss & Hf & Hs & Ho)|[(Hf & Hq & Hs & Ho)|(Hf & Hq & _)]]; [| |lia].
    + assert (Hsst : set_stamp stamp ss = stamp e).
      { apply Hstamp. rewrite Ho, signals_signal. cbn; auto. }
      rewrite Ho, Hs, signals_signal, signals_drops. split; cbn [tuples].
      * intros j x Hx. apply in_app_or in Hx as [Hx|[[= <- <-]|[]]].
        -- apply IH1 in Hx as [(s1 & H1 & H2)|(t1 & H1 & H2)].
           ++ left. exists s1. split; auto. apply in_or_app; auto.
           ++ destruct (Hold _ H1) as [Hka|[Hkb|[_ [= Hke ->]]]].
              ** left. exists ss. split; [apply in_or_app; cbn; auto|]. apply Ha in Hka. cbn in Hka. lia.
              ** right. exists t1. auto.
              ** left. exists ss. split; [apply in_or_app; cbn; auto|]. lia.
        -- left. exists ss. split; [apply in_or_app; cbn; auto|]. lia.
      * intros s1 kt Hs1 Hkt. apply in_app_or in Hs1 as [Hs1|[<-|[]]].
        -- apply IH2; auto.
        -- rewrite Hsst. auto.
    + rewrite Ho, Hs. cbn [signals flat_map]. rewrite app_nil_r. split; cbn [tuples].
      * intros j x Hx. apply in_app_or in Hx as [Hx|[[= <- <-]|[]]].
        -- pose proof (IH1 _ _ Hx) as [H1|(t1 & H1 & H2)]; [left; exact H1|]. right.
           destruct (Hold _ H1) as [Hka|[Hkb|[Hmid [= Hke ->]]]].
           ++ exists t1. split; auto. apply in_or_app; auto.
           ++ exists t1. split; auto. apply in_or_app; cbn; auto.
           ++ exists t. split. { apply in_or_app; cbn. right; left. f_equal. auto. }
              unfold t. rewrite nth_error_upd. destruct (Nat.eqb_spec i j) as [<-|]; auto.
              apply Hold_e in Hx. lia.
        -- right. exists t. split; [apply in_or_app; cbn; auto|].
           unfold t. rewrite nth_error_upd, Nat.eqb_refl.
           destruct (Nat.ltb_spec i (length t0)); auto; lia.
      * intros s1 kt Hs1 Hkt. apply in_app_or in Hkt as [Hkt|[<-|Hkt]]; auto.
Qed.

Lemma stream_unique h i e e' :
  (i < n)%nat -> in_order stamp n h -> In (i, e) h -> In (i, e') h -> stamp e = stamp e' -> e = e'.
Proof.
  intros Hi HO H1 H2 Heq. specialize (HO i Hi). apply stream_in in H1, H2.
  unfold strictly_increasing in HO. induction HO as [|x l HS IH HF]; [destruct H1|].
  rewrite Forall_forall in HF. destruct H1 as [<-|H1], H2 as [<-|H2]; auto.
  - apply HF in H2. lia.
  - apply HF in H1. lia.
Qed.

Lemma matching_set_unique h t s1 s2 :
  in_order stamp n h -> matching_set stamp n h t s1 -> matching_set stamp n h t s2 -> s1 = s2.
Proof.
  intros HO [L1 H1] [L2 H2].
  assert (Hn : forall j, nth_error s1 j = nth_error s2 j).
  { intros j. destruct (nth_error s1 j) as [a|] eqn:Ea.
    - assert (j < n)%nat by (rewrite <- L1; apply nth_error_Some; congruence).
      destruct (nth_error s2 j) as [b|] eqn:Eb.
      + apply H1 in Ea as [? ?]. apply H2 in Eb as [? ?]. f_equal.
        eapply stream_unique; eauto. congruence.
      + apply nth_error_None in Eb. lia.
    - symmetry. apply nth_error_None. apply nth_error_None in Ea. lia. }
  clear -Hn. revert s2 Hn; induction s1 as [|a s1 IH]; intros [|b s2] Hn; auto.
  - specialize (Hn 0%nat); discriminate.
  - specialize (Hn 0%nat); discriminate.
  - f_equal. { specialize (Hn 0%nat). cbn in Hn. congruence. }
    apply IH. intros j. apply (Hn (S j)).
Qed.

(** The addition that completes a set outputs it, and nothing else is output. *)
Lemma add_complete h i e ss :
  well_indexed n (h ++ [(i, e)]) -> in_order stamp n (h ++ [(i, e)]) ->
  (matching_set stamp n (h ++ [(i, e)]) (stamp e) ss <->
   signals (snd (add (fst (run init h)) (i, e))) = [ss]).
Proof.
  intros HW HO. apply well_indexed_app in HW as [HW Hi0].
  assert (Hi : (i < n)%nat) by (eapply Hi0; cbn; auto).
  pose proof (run_inv stamp n 0 h HW) as HI.
  split.
  2:{ intros Hs. eapply (add_signals stamp n 0 h); eauto. rewrite Hs. cbn; auto. }
  intros HM. pose proof (run_cinv h HW (in_order_prefix _ _ _ _ HO)) as [C1 C2].
  pose proof (fun ss => signals_before_new stamp n 0 h i e ss Hi HO HW) as Hbefore.
  set (s := fst (run init h)) in *.
  pose proof (add_desc stamp n 0 h s i e Hi HI) as HD. destruct HI as (HS & HT & HB).
  inversion HD as [a b t0 s' os Ha Hb Hm Hcase Hs' Hos]. clear HD.
  assert (Hlt : length t0 = n).
  { destruct Hm as [[_ ->]|Hm]; [apply repeat_length|]. apply (HT (stamp e, t0)). rewrite Hm.
    apply in_or_app; cbn; auto. }
  cbv zeta in Hcase. set (t := upd i (Some e) t0) in *.
  destruct HM as [HL HMs].
  assert (Ht : t = map Some ss).
  { apply (list_eq_nth None). { unfold t. rewrite upd_length, map_length. lia. }
    intros j Hj. unfold t in Hj. rewrite upd_length in Hj.
    destruct (nth_error ss j) as [ej|] eqn:Hej. 2:{ apply nth_error_None in Hej. lia. }
    assert (Hr : nth j (map Some ss) None = Some ej).
    { apply nth_error_nth. rewrite nth_error_map, Hej. reflexivity. }
    rewrite Hr. apply nth_error_nth. unfold t. rewrite nth_error_upd.
    destruct (HMs j ej Hej) as [Hin Hst].
    destruct (Nat.eqb_spec i j) as [<-|Hne].
    - destruct (Nat.ltb_spec i (length t0)); [|lia]. do 2 f_equal.
      eapply (stream_unique (h ++ [(i, e)])); eauto. apply in_or_app; cbn; auto.
    - apply in_app_or in Hin as [Hin|[[= ]|[]]]; [|congruence].
      apply C1 in Hin as [(s1 & H1 & H2)|(t1 & H1 & H2)].
      + apply Hbefore in H1. lia.
      + rewrite Hst in H1. destruct Hm as [[Hm _]|Hm]; rewrite Hm in H1.
        * apply in_app_or in H1 as [H1|H1]; [apply Ha in H1|apply Hb in H1]; cbn in H1; lia.
        * apply in_app_or in H1 as [H1|[[= <-]|H1]]; auto; [apply Ha in H1|apply Hb in H1]; cbn in H1; lia. }
  destruct Hcase as [(ss' & Hf & Hs & Ho)|[(Hf & _)|(Hf & _)]].
  - rewrite Ho, signals_signal, signals_drops. apply full_some in Hf. rewrite Ht in Hf.
    f_equal. clear -Hf. revert ss' Hf; induction ss; intros [|x ss'] Hf; cbn in *; try congruence.
    injection Hf as -> Hf. f_equal. symmetry. rewrite (IHss ss'); auto.
  - rewrite Ht in Hf. assert (full (map Some ss) = Some ss) by now apply full_some. congruence.
  - rewrite Ht in Hf. assert (full (map Some ss) = Some ss) by now apply full_some. congruence.
Qed.

Lemma signals_iff h ss :
  (0 < n)%nat -> well_indexed n h -> in_order stamp n h ->
  (In ss (signals (snd (run init h))) <-> exists t, matching_set stamp n h t ss).
Proof.
  intros Hn HW HO. split; [now apply run_signals|]. revert HW HO.
  induction h as [|[i e] h IH] using rev_ind; intros HW HO [t HM].
  - destruct (matching_set_slot stamp n [] t ss 0 Hn HM) as (x & _ & [] & _).
  - rewrite run_snoc; cbn [snd]. rewrite signals_app. apply in_or_app.
    assert (Hi : (i < n)%nat). { eapply HW, in_or_app; cbn; eauto. }
    destruct (matching_set_slot stamp n _ t ss i Hi HM) as (x & Hx & Hin & Hst).
    apply in_app_or in Hin as [Hin|[[= <-]|[]]].
    + left. apply well_indexed_app in HW as [HW _]. apply IH; eauto using in_order_prefix.
      exists t. destruct HM as [HL HM]. split; auto. intros j y Hy.
      destruct (HM j y Hy) as [Hj1 Hj2]. split; auto.
      apply in_app_or in Hj1 as [Hj1|[[= <- <-]|[]]]; auto. congruence.
    + right. subst t. apply (add_complete h i e ss HW HO) in HM. rewrite HM. cbn; auto.
Qed.

Lemma sorted_same_members (l1 l2 : list (list E)) :
  StronglySorted (fun a b => set_stamp stamp a < set_stamp stamp b) l1 ->
  StronglySorted (fun a b => set_stamp stamp a < set_stamp stamp b) l2 ->
  (forall x, In x l1 <-> In x l2) -> l1 = l2.
Proof.
  intros H1. revert l2; induction H1 as [|x l1 HS IH HF]; intros [|y l2] H2 H; auto.
  - exfalso. apply (H y). cbn; auto.
  - exfalso. apply (H x). cbn; auto.
  - rewrite Forall_forall in HF. inversion H2 as [|? ? HS2 HF2]; subst. rewrite Forall_forall in HF2.
    assert (x = y).
    { destruct (proj1 (H x) (or_introl eq_refl)) as [->|Hx]; auto.
      destruct (proj2 (H y) (or_introl eq_refl)) as [->|Hy]; auto.
      apply HF in Hy. apply HF2 in Hx. lia. }
    subst y. f_equal. apply IH; auto. intros z. split; intros Hz.
    + destruct (proj1 (H z) (or_intror Hz)) as [<-|]; auto. apply HF in Hz. lia.
    + destruct (proj2 (H z) (or_intror Hz)) as [<-|]; auto. apply HF2 in Hz. lia.
Qed.

Lemma order_independent h h' :
  (0 < n)%nat -> well_indexed n h -> well_indexed n h' -> in_order stamp n h ->
  (forall i, (i < n)%nat -> stream i h = stream i h') ->
  signals (snd (run init h)) = signals (snd (run init h')).
Proof.
  intros Hn HW HW' HO HS.
  assert (HO' : in_order stamp n h') by (intros i Hi; rewrite <- HS; auto).
  apply sorted_same_members; try (now apply signals_increasing).
  assert (Hin : forall j e, (j < n)%nat -> In (j, e) h <-> In (j, e) h').
  { intros j e Hj. rewrite <- !stream_in. now rewrite HS. }
  intros ss. rewrite !signals_iff by auto.
  split; intros [t [HL HM]]; exists t; (split; [exact HL|]); intros j e He;
    (assert (Hj : (j < n)%nat) by (rewrite <- HL; apply nth_error_Some; congruence));
    apply HM in He as [? ?]; split; auto; apply (Hin j e Hj); auto.
Qed.
End Complete.
