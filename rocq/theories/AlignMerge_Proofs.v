From Coq Require Import List Arith ZArith Lia Bool Sorted Permutation.
From Verif Require Import Base RclTime Trace Aligner_Model Aligner_Spec Aligner_Proofs AlignMerge_Spec.
Import ListNotations.
Local Open Scope Z_scope.

Section Proofs.
Context {E : Type} (stamp : E -> Z).
Variable n : nat.
Variable timeout : Z.
Variable per : nat -> Z.
Hypothesis Hstamp : forall e, stamp e < int64_max.
Hypothesis Hn : (0 < n)%nat.
Hypothesis Hto : 0 <= timeout.
Notation state := (state E).
Notation op := (op E).
Notation before := (before stamp).
Notation timely := (timely stamp n timeout per).
Notation ts := (ts stamp).
Notation touch := (touch stamp).

(** ** the first minimum *)
Lemma min_element_first l idx best b j :
  let r := min_element l idx best b in
  (r = best \/ exists k, r = (idx + k)%nat /\ forall x, nth_error l j = Some x -> (idx + j < r)%nat -> (match nth_error l k with Some y => y < x | None => False end)) /\
  (r <> best -> match nth_error l (r - idx) with Some y => y < b | None => False end).
Proof.
  revert idx best b j; induction l as [|t l IH]; intros idx best b j; cbn [min_element].
  - split; auto. congruence.
  - destruct (Z.ltb_spec t b) as [Hlt|Hge].
    + destruct (IH (S idx) idx t (pred j)) as [H1 H2]. set (r := min_element l (S idx) idx t) in *. split.
      * right. destruct (Nat.eq_dec r idx) as [Hr|Hr].
        -- exists 0%nat. split; [lia|]. intros x _ Hx. lia.
        -- destruct H1 as [H1|(k & Hk & H1)]; [congruence|]. exists (S k). split; [lia|]. intros x Hx Hj.
           specialize (H2 Hr). replace (r - S idx)%nat with k in H2 by lia. cbn [nth_error].
           destruct j as [|j]; cbn in Hx.
           ++ injection Hx as <-. destruct (nth_error l k); auto.
           ++ apply (H1 x Hx). cbn. lia.
      * intros Hb. destruct (Nat.eq_dec r idx) as [Hr|Hr].
        -- rewrite Hr, Nat.sub_diag. cbn. auto.
        -- specialize (H2 Hr). destruct H1 as [H1|(k & Hk & _)]; [congruence|].
           replace (r - idx)%nat with (S (r - S idx)) by lia. cbn. destruct (nth_error l (r - S idx)); [lia|auto].
    + destruct (IH (S idx) best b (pred j)) as [H1 H2]. set (r := min_element l (S idx) best b) in *. split.
      * destruct H1 as [H1|(k & Hk & H1)]; [auto|]. destruct (Nat.eq_dec r best) as [Hr|Hr]; [auto|].
        right. exists (S k). split; [lia|]. intros x Hx Hj. cbn [nth_error].
        specialize (H2 Hr). replace (r - S idx)%nat with k in H2 by lia.
        destruct j as [|j]; cbn in Hx.
        -- injection Hx as <-. destruct (nth_error l k); [lia|auto].
        -- apply (H1 x Hx). cbn. lia.
      * intros Hb. specialize (H2 Hb). destruct H1 as [H1|(k & Hk & _)]; [congruence|].
        replace (r - idx)%nat with (S (r - S idx)) by lia. exact H2.
Qed.

Lemma first_sample_first (l : list Z) j x y :
  nth_error l (first_sample_idx l) = Some y -> nth_error l j = Some x -> (j < first_sample_idx l)%nat -> y < x.
Proof.
  destruct l as [|t l]; [destruct j; discriminate|]. cbn [first_sample_idx]. intros Hy Hx Hj.
  destruct (min_element_first l 1 0 t (pred j)) as [H1 H2]. set (r := min_element l 1 0 t) in *.
  destruct H1 as [H1|(k & Hk & H1)]; [lia|]. destruct r as [|r]; [lia|]. cbn in Hy. assert (k = r) by lia. subst k.
  destruct j as [|j]; cbn in Hx.
  - injection Hx as <-. specialize (H2 ltac:(lia)). replace (S r - 1)%nat with r in H2 by lia. now rewrite Hy in H2.
  - specialize (H1 x Hx ltac:(cbn; lia)). now rewrite Hy in H1.
Qed.

Lemma forward_first s s' idx e b :
  length (queues s) = n -> dispatch_first stamp timeout s = Ok (s', [(idx, e)], b) ->
  forall j, (j < idx)%nat -> stamp e < ts (qat j s).
Proof.
  intros HL Hd j Hj. unfold dispatch_first in Hd. set (l := map snd (map (first_time_stamp stamp) (queues s))) in *.
  destruct (nth_error (map fst (map (first_time_stamp stamp) (queues s))) (first_sample_idx l)) as [q|] eqn:Hq; [|discriminate].
  destruct (evs q) as [|e' t] eqn:He.
  { destruct (timeout <=? _); discriminate. }
  injection Hd as <- Hidx <- <-. rewrite map_map, nth_error_map in Hq.
  destruct (nth_error (queues s) (first_sample_idx l)) as [q0|] eqn:Hq0; [|discriminate]. cbn in Hq. injection Hq as <-.
  change (evs (touch q0) = e' :: t) in He. rewrite touch_evs in He.
  assert (Hjn : (j < length (queues s))%nat).
  { assert (first_sample_idx l < length (queues s))%nat by (apply nth_error_Some; congruence). lia. }
  apply (first_sample_first l j).
  - unfold l at 1. rewrite map_map, nth_error_map, Hq0. cbn. f_equal. apply (ts_nonempty stamp q0 e' t He).
  - unfold l. rewrite map_map, nth_error_map. rewrite (nth_error_nth' (queues s) queue_init Hjn). reflexivity.
  - lia.
Qed.

(** ** histories *)
Lemma timely_prefix h o : timely (h ++ [o]) -> timely h.
Proof.
  intros [H1 H2 H3 H4 H5]. constructor; auto.
  - intros h1 h2 i ->. apply (H2 h1 (h2 ++ [o])). now rewrite <- app_assoc.
  - intros i e He. apply (H3 i e). rewrite adds_snoc. apply in_or_app; auto.
  - intros i l1 x y l2 Hs. rewrite adds_snoc in H4.
    apply (H4 i l1 x y (l2 ++ stream i match o with Add i e => [(i, e)] | _ => [] end)).
    rewrite stream_app, Hs, <- app_assoc. reflexivity.
  - intros h1 h2 i y ->. apply (H5 h1 (h2 ++ [o])). now rewrite <- app_assoc.
Qed.

Lemma gaps_sorted (l : list E) p :
  0 <= p -> (forall l1 x y l2, l = l1 ++ x :: y :: l2 -> stamp x + p <= stamp y) -> nondecreasing stamp l.
Proof.
  intros Hp. induction l as [|x l IH]; intros H; [constructor|].
  assert (HS : nondecreasing stamp l).
  { apply IH. intros l1 y z l2 ->. apply (H (x :: l1) y z l2). reflexivity. }
  constructor; auto. destruct l as [|y l]; [constructor|].
  specialize (H [] x y l eq_refl). inversion HS as [|? ? _ HF]; subst. constructor; [lia|].
  eapply Forall_impl; [|exact HF]. cbn. intros; lia.
Qed.

Lemma timely_sorted h i : timely h -> nondecreasing stamp (stream i (adds h)).
Proof. intros [H1 _ _ H4 _]. apply (gaps_sorted _ (per i)); auto. intros l1 x y l2 H. eapply H4; eauto. Qed.

Lemma stream_In i (e : E) l : In e (stream i l) <-> In (i, e) l.
Proof.
  unfold stream. rewrite in_map_iff. split.
  - intros ([j x] & <- & H). apply filter_In in H as [H1 H2]. apply Nat.eqb_eq in H2. cbn in *. now subst.
  - intros H. exists (i, e). split; auto. apply filter_In. split; auto. apply Nat.eqb_refl.
Qed.

Lemma ins_last e l : (forall x, In x l -> stamp x <= stamp e) -> ins stamp e l = l ++ [e].
Proof.
  induction l as [|x l IH]; intros H; cbn; auto. destruct (Z.ltb_spec (stamp e) (stamp x)) as [Hlt|_].
  - specialize (H x (or_introl eq_refl)). lia.
  - f_equal. apply IH. intros; apply H; cbn; auto.
Qed.

(** ** the invariant *)
Record J (h : list op) (s : state) (outs : list (nat * E)) : Prop := mkJ {
  j_stream : forall j, (j < n)%nat -> stream j (adds h) = stream j outs ++ evs (qat j s);
  j_sorted : StronglySorted before outs;
  j_queued : forall x j e, In x outs -> (j < n)%nat -> In e (evs (qat j s)) -> before x (j, e);
  j_next : forall j l x, (j < n)%nat -> evs (qat j s) = [] -> stream j outs = l ++ [x] ->
    active (qat j s) = true /\ next_ts (qat j s) = stamp x + per j;
  j_idle : forall x j, In x outs -> (j < n)%nat -> evs (qat j s) = [] ->
    stamp (snd x) < next_ts (qat j s) \/ stamp (snd x) = next_ts (qat j s) /\ (fst x <= j)%nat;
  j_all : outs <> [] -> forall j, (j < n)%nat -> stream j (adds h) <> [] }.

Lemma J_init : J [] (init n) [].
Proof.
  constructor.
  - intros j _. rewrite init_qat. reflexivity.
  - constructor.
  - intros x j e [].
  - intros j l x _ _ H. destruct l; discriminate.
  - intros x j [].
  - congruence.
Qed.

Lemma before_trans x y z : before x y -> before y z -> before x z.
Proof. unfold AlignMerge_Spec.before. lia. Qed.

Lemma J_add h s outs i e :
  (i < n)%nat -> timely (h ++ [Add i e]) -> Inv stamp n (after stamp n timeout) h s outs -> J h s outs ->
  exists s', add stamp s i e = Ok s' /\ J (h ++ [Add i e]) s' outs.
Proof.
  intros Hi HT (HL & _ & _ & HLa & _) [J1 J2 J3 J4 J5 J6].
  pose proof (timely_sorted _ i HT) as HSi. destruct HT as [T1 _ T3 T4 _].
  assert (HS : stream i (adds (h ++ [Add i e])) = stream i (adds h) ++ [e]).
  { rewrite adds_snoc, stream_app, stream_single, Nat.eqb_refl. reflexivity. }
  rewrite HS in HSi.
  assert (HSx : forall x, In x (stream i (adds h)) -> stamp x <= stamp e).
  { intros x Hx. apply StronglySorted_app in HSi as (_ & _ & H). apply (H x e Hx). cbn; auto. }
  assert (He : 0 <= stamp e) by (apply (T3 i); rewrite adds_snoc; apply in_or_app; cbn; auto).
  (* everything forwarded is before (i, e) *)
  assert (Hb : forall x, In x outs -> before x (i, e)).
  { intros x Hx. destruct (evs (qat i s)) as [|y l] eqn:Hev.
    - assert (Hne : outs <> []) by (intros ->; destruct Hx). specialize (J6 Hne i Hi). specialize (J1 i Hi).
      rewrite Hev, app_nil_r in J1. destruct (stream i outs) as [|a b] eqn:Ho using rev_ind; [congruence|]. clear IHb.
      destruct (J4 i b a Hi Hev Ho) as [_ Hnx]. specialize (J5 x i Hx Hi Hev).
      specialize (T4 i b a e []). rewrite HS, J1, <- app_assoc in T4. specialize (T4 eq_refl).
      unfold AlignMerge_Spec.before. cbn. lia.
    - assert (Hy : In y (stream i (adds h))) by (rewrite (J1 i Hi), Hev; apply in_or_app; cbn; auto).
      apply (before_trans x (i, y)); [apply J3; auto; rewrite Hev; cbn; auto|].
      apply HSx in Hy. unfold AlignMerge_Spec.before. cbn. lia. }
  assert (Hge : last_out s <= stamp e).
  { destruct HLa as [->|(x & Hx & <-)]; auto. apply Hb in Hx. unfold AlignMerge_Spec.before in Hx. cbn in Hx. unfold key. lia. }
  unfold add. rewrite (nth_error_nth' (queues s) queue_init) by lia. fold (qat i s).
  destruct (Z.ltb_spec (stamp e) (last_out s)) as [Hlt|_]; [lia|]. eexists. split; [reflexivity|]. set (s' := mkState _ _ _).
  assert (Hq : forall j, qat j s' = if Nat.eqb j i then set_evs (evs (qat i s) ++ [e]) (qat i s) else qat j s).
  { intros j. unfold qat at 1. cbn [s' queues]. destruct (Nat.eqb_spec j i) as [->|Hj].
    - rewrite nth_upd_eq by lia. now rewrite ins_last by (intros x Hx; apply HSx; rewrite (J1 i Hi); apply in_or_app; auto).
    - rewrite nth_upd_neq by congruence. reflexivity. }
  assert (Hne : forall j, j <> i -> stream j (adds (h ++ [Add i e])) = stream j (adds h)).
  { intros j Hj. rewrite adds_snoc. rewrite stream_other by congruence. reflexivity. }
  constructor; auto.
  - intros j Hj. rewrite Hq. destruct (Nat.eqb_spec j i) as [->|Hji].
    + rewrite HS, (J1 i Hi). cbn. now rewrite app_assoc.
    + rewrite Hne by auto. auto.
  - intros x j y Hx Hj. rewrite Hq. destruct (Nat.eqb_spec j i) as [->|Hji]; [|apply J3; auto].
    cbn. intros Hy. apply in_app_or in Hy as [Hy|[<-|[]]]; auto.
  - intros j l x Hj. rewrite Hq. destruct (Nat.eqb_spec j i) as [->|Hji]; [|apply J4; auto].
    cbn. intros H. destruct (evs (qat i s)); discriminate.
  - intros x j Hx Hj. rewrite Hq. destruct (Nat.eqb_spec j i) as [->|Hji]; [|apply J5; auto].
    cbn. intros H. destruct (evs (qat i s)); discriminate.
  - intros Ho j Hj. destruct (Nat.eq_dec j i) as [->|Hji]; [|rewrite Hne by auto; auto].
    rewrite HS. destruct (stream i (adds h)); discriminate.
Qed.

Lemma J_period h s outs i p : (i < n)%nat -> length (queues s) = n -> J h s outs ->
  exists s', set_period s i p = Ok s' /\ J (h ++ [SetPeriod i p]) s' outs.
Proof.
  intros Hi HL [J1 J2 J3 J4 J5 J6]. unfold set_period. rewrite (nth_error_nth' (queues s) queue_init) by lia. fold (qat i s).
  eexists. split; [reflexivity|]. set (s' := mkState _ _ _).
  assert (Hq : forall j, evs (qat j s') = evs (qat j s) /\ active (qat j s') = active (qat j s) /\ next_ts (qat j s') = next_ts (qat j s)).
  { intros j. unfold qat. cbn [s' queues]. destruct (Nat.eq_dec j i) as [->|Hj].
    - rewrite nth_upd_eq by lia. auto.
    - rewrite nth_upd_neq by congruence. auto. }
  assert (Ha : adds (h ++ [SetPeriod i p]) = adds h) by (rewrite adds_snoc; apply app_nil_r).
  constructor; auto.
  - intros j Hj. rewrite Ha. destruct (Hq j) as (-> & _). auto.
  - intros x j e Hx Hj. destruct (Hq j) as (-> & _). auto.
  - intros j l x Hj. destruct (Hq j) as (-> & -> & ->). eauto.
  - intros x j Hx Hj. destruct (Hq j) as (-> & _ & ->). auto.
  - rewrite Ha. auto.
Qed.

(** One iteration of the loop, under the conditions that hold during dispatchMessages. *)
Lemma J_micro h s s' outs o b :
  timely h -> (forall j y, (j < n)%nat -> In y (adds h) -> exists x, In (j, x) (adds h) /\ stamp (snd y) - (stamp x + per j) < timeout) ->
  Inv stamp n (after stamp n timeout) h s outs -> reach stamp n timeout h outs s -> adds h <> [] -> J h s outs ->
  dispatch_first stamp timeout s = Ok (s', o, b) -> micro stamp n timeout s s' o b -> J h s' (outs ++ o).
Proof.
  intros HT HP HI HR Hne [J1 J2 J3 J4 J5 J6] Hd Hm.
  assert (Hall : forall j, (j < n)%nat -> stream j (adds h) <> []).
  { intros j Hj. destruct (adds h) as [|y l] eqn:Ha; [congruence|]. rewrite <- Ha in *.
    destruct (HP j y Hj) as (x & Hx & _); [rewrite Ha; cbn; auto|]. apply stream_In in Hx. intros H. now rewrite H in Hx. }
  assert (Hper : forall j, (j < n)%nat -> period (qat j s) = per j).
  { intros j Hj. destruct (reach_predicts stamp n timeout h outs s Hn HR j Hj) as [-> _].
    apply (tm_force _ _ _ _ _ HT h []); auto. now rewrite app_nil_r. }
  assert (Hact : forall j, (j < n)%nat -> evs (qat j s) = [] ->
    exists x, In (j, x) (adds h) /\ active (qat j s) = true /\ next_ts (qat j s) = stamp x + per j /\
      forall y, In (j, y) (adds h) -> stamp y <= stamp x).
  { intros j Hj He. specialize (J1 j Hj). rewrite He, app_nil_r in J1. pose proof (Hall j Hj) as Hs.
    pose proof (timely_sorted h j HT) as HS.
    destruct (stream j outs) as [|x l] eqn:Ho using rev_ind; [congruence|]. clear IHl.
    destruct (J4 j l x Hj He Ho) as [Ha Hnx]. exists x. split; [apply stream_In; rewrite J1; apply in_or_app; cbn; auto|].
    split; auto. split; auto. intros y Hy. apply stream_In in Hy. rewrite J1 in Hy, HS.
    apply StronglySorted_app in HS as (_ & _ & HS). apply in_app_or in Hy as [Hy|[->|[]]]; [|lia]. apply (HS y x Hy). cbn; auto. }
  pose proof HI as (HL & _ & _ & _ & Hin & (Hle & Hlx & Hli) & HQ).
  assert (Hsort : forall j, (j < n)%nat -> nondecreasing stamp (evs (qat j s))).
  { intros j Hj. pose proof (timely_sorted h j HT) as HS. rewrite (J1 j Hj) in HS. now apply StronglySorted_app in HS as (_ & HS & _). }
  pose proof (tm_period _ _ _ _ _ HT) as Hpos.
  inversion Hm as [idx e t qs' Hidx He Hmin HLq Hnth|idx qs' Hidx He Hmin Ht HLq Hnth|idx qs' Hidx He Hmin Ht HLq Hnth]; subst.
  - pose proof (forward_first s _ idx e true HL Hd) as Hfirst.
    set (s' := mkState qs' (last_in s) (stamp e)) in *.
    assert (Hq : forall j, qat j s' = if Nat.eqb j idx then pop_first (touch (qat j s)) else touch (qat j s)) by exact Hnth.
    assert (Hnew : forall j, (j < n)%nat -> stamp e < ts (qat j s) \/ stamp e = ts (qat j s) /\ (idx <= j)%nat).
    { intros j Hj. specialize (Hmin j Hj). destruct (le_lt_dec idx j) as [Hij|Hij]; [lia|]. left. auto. }
    assert (Hev : forall j, evs (qat j s') = if Nat.eqb j idx then t else evs (qat j s)).
    { intros j. rewrite Hq. destruct (Nat.eqb_spec j idx) as [->|Hj]; cbn; rewrite touch_evs; auto. now rewrite He. }
    assert (Hb : forall j y, (j < n)%nat -> In y (evs (qat j s)) -> before (idx, e) (j, y)).
    { intros j y Hj Hy. destruct (evs (qat j s)) as [|z l] eqn:Hz; [destruct Hy|].
      specialize (Hnew j Hj). rewrite (ts_nonempty stamp _ _ _ Hz) in Hnew. specialize (Hsort j Hj). rewrite Hz in Hsort.
      inversion Hsort as [|? ? _ HF]; subst. rewrite Forall_forall in HF. unfold AlignMerge_Spec.before. cbn.
      destruct Hy as [<-|Hy]; [lia|]. apply HF in Hy. lia. }
    constructor.
    + intros j Hj. rewrite (J1 j Hj), stream_app, stream_single, Hev, <- app_assoc. f_equal. rewrite Nat.eqb_sym.
      destruct (Nat.eqb_spec j idx) as [->|Hji]; [rewrite He|]; reflexivity.
    + apply StronglySorted_app. split; auto. split; [repeat constructor|]. intros x y Hx [<-|[]].
      apply J3; auto. rewrite He. cbn; auto.
    + intros x j y Hx Hj Hy. rewrite Hev in Hy.
      assert (Hy' : In y (evs (qat j s))) by (destruct (Nat.eqb_spec j idx) as [->|]; auto; rewrite He; cbn; auto).
      apply in_app_or in Hx as [Hx|[<-|[]]]; [apply J3; auto|apply Hb; auto].
    + intros j l x Hj Hje Hs. rewrite Hev in Hje. rewrite stream_app, stream_single in Hs. rewrite Nat.eqb_sym in Hs.
      rewrite Hq. destruct (Nat.eqb_spec j idx) as [->|Hji].
      * apply app_inj_tail in Hs as [_ <-]. destruct (touch_next stamp (qat idx s) e t He) as [H1 H2].
        cbn. rewrite H1, H2, Hper by auto. auto.
      * rewrite app_nil_r in Hs. rewrite touch_empty by auto. eapply J4; eauto.
    + intros x j Hx Hj Hje. rewrite Hev in Hje. rewrite Hq. destruct (Nat.eqb_spec j idx) as [->|Hji].
      * destruct (touch_next stamp (qat idx s) e t He) as [H1 _]. cbn. rewrite H1, Hper by auto. specialize (Hpos idx).
        apply in_app_or in Hx as [Hx|[<-|[]]]; [|cbn; lia].
        assert (Hbx : before x (idx, e)) by (apply J3; auto; rewrite He; cbn; auto).
        unfold AlignMerge_Spec.before in Hbx. cbn in Hbx. lia.
      * rewrite touch_empty by auto. apply in_app_or in Hx as [Hx|[<-|[]]]; [apply J5; auto|]. cbn.
        specialize (Hnew j Hj). destruct (Hact j Hj Hje) as (_ & _ & Ha & _). rewrite (ts_empty stamp) in Hnew by auto. rewrite Ha in Hnew. lia.
    + intros _ j Hj. auto.
  - exfalso. destruct (Hact idx Hidx He) as (x & Hx & Ha & Hnx & Hlast). rewrite (ts_empty stamp), Ha in Ht by auto.
    assert (Hy : exists y, In y (adds h) /\ last_in s <= stamp (snd y)).
    { destruct Hli as [H0|(y & Hy & Hk)]; [|exists y; split; auto; unfold key in Hk; lia].
      exists (idx, x). split; auto. cbn. rewrite H0. eapply (tm_start _ _ _ _ _ HT); eauto. }
    destruct Hy as (y & Hy & Hly). destruct (HP idx y Hidx Hy) as (x' & Hx' & Hlt). apply Hlast in Hx'. lia.
  - rewrite app_nil_r. set (s' := mkState qs' (last_in s) (last_out s)).
    assert (Hq : forall j, qat j s' = touch (qat j s)) by exact Hnth.
    assert (Hev : forall j, evs (qat j s') = evs (qat j s)) by (intros j; rewrite Hq; apply touch_evs).
    constructor; auto.
    + intros j Hj. rewrite Hev. auto.
    + intros x j y Hx Hj. rewrite Hev. auto.
    + intros j l x Hj Hje. rewrite Hev in Hje. rewrite Hq, touch_empty by auto. eauto.
    + intros x j Hx Hj Hje. rewrite Hev in Hje. rewrite Hq, touch_empty by auto. auto.
Qed.

Lemma adds_dispatch (h : list op) : adds (h ++ [Dispatch]) = adds h.
Proof. rewrite adds_snoc. apply app_nil_r. Qed.

Lemma J_snoc_dispatch h s outs : J h s outs -> J (h ++ [Dispatch]) s outs.
Proof. intros [J1 J2 J3 J4 J5 J6]. constructor; auto; rewrite adds_dispatch; auto. Qed.

Lemma J_dispatch h s outs :
  timely (h ++ [Dispatch]) -> Inv stamp n (after stamp n timeout) h s outs -> reach stamp n timeout h outs s -> J h s outs ->
  exists s' o, dispatch stamp timeout s = Ok (s', o) /\ J (h ++ [Dispatch]) s' (outs ++ o).
Proof.
  intros HT HI HR HJ. unfold dispatch. destruct (inputs_available s) eqn:Hav.
  - assert (Hne : adds h <> []).
    { unfold inputs_available in Hav. apply existsb_exists in Hav as (q & Hq & Hev).
      apply (In_nth _ _ queue_init) in Hq as (j & Hj & Hq). destruct HI as (HL & _). rewrite HL in Hj.
      pose proof (j_stream _ _ _ HJ j Hj) as Hs. unfold qat in Hs. rewrite Hq in Hs. destruct (evs q) as [|x l]; [discriminate|].
      intros H0. rewrite H0 in Hs. destruct (stream j outs); discriminate. }
    assert (HP : forall j y, (j < n)%nat -> In y (adds (h ++ [Dispatch])) ->
      exists x, In (j, x) (adds (h ++ [Dispatch])) /\ stamp (snd y) - (stamp x + per j) < timeout).
    { intros j y Hj Hy. rewrite adds_dispatch in *. eapply (tm_present _ _ _ _ _ HT h []); eauto. }
    destruct (loop_ind stamp n timeout (fun s' o => Inv stamp n (after stamp n timeout) (h ++ [Dispatch]) s' (outs ++ o) /\
       reach stamp n timeout (h ++ [Dispatch]) (outs ++ o) s' /\ J (h ++ [Dispatch]) s' (outs ++ o)) Hn Hto) with
      (fuel := fuel_for s) (s := s) (o := @nil (nat * E)) as (s' & o & Hl & (_ & _ & HJ') & _).
    + intros s1 o1 ((HL & _ & _ & _ & Hin & _) & _). split; auto. lia.
    + intros s1 s2 o1 o2 b (HI1 & HR1 & HJ1) Hd Hm. rewrite app_assoc. split; [eapply micro_inv; eauto|].
      split; [eapply R_first; eauto|]. apply (J_micro _ s1 _ _ _ b); auto. now rewrite adds_dispatch.
    + apply fuel_enough.
    + rewrite app_nil_r. split; [now apply Inv_dispatch_snoc|]. split; [now apply R_dispatch|now apply J_snoc_dispatch].
    + exists s', o. auto.
  - exists s, []. rewrite app_nil_r. split; auto. now apply J_snoc_dispatch.
Qed.

Lemma well_indexed_prefix (h : list op) o : well_indexed n (h ++ [o]) -> well_indexed n h.
Proof. intros [H1 H2]. split; intros; [eapply H1|eapply H2]; apply in_or_app; eauto. Qed.

Lemma run_J h : well_indexed n h -> timely h ->
  exists s outs, run stamp timeout (init n) h = Ok (s, outs) /\ J h s outs.
Proof.
  induction h as [|o h IH] using rev_ind; intros HW HT.
  - exists (init n), []. split; auto. apply J_init.
  - pose proof (well_indexed_prefix _ _ HW) as HW'. destruct (IH HW' (timely_prefix _ _ HT)) as (s & outs & Hr & HJ).
    destruct (run_inv stamp n timeout Hstamp h Hn Hto HW') as (s1 & o1 & Hr1 & HI & HR & _). rewrite Hr in Hr1. injection Hr1 as <- <-.
    rewrite run_snoc, Hr. cbn [bind]. destruct HW as [HW1 HW2]. destruct o as [i e|i p|]; cbn [step].
    + destruct (J_add h s outs i e) as (s' & Ha & HJ'); auto. { apply (HW1 i e), in_or_app. cbn; auto. }
      rewrite Ha. cbn. rewrite app_nil_r. eauto.
    + destruct (J_period h s outs i p) as (s' & Ha & HJ'); auto. { apply (HW2 i p), in_or_app. cbn; auto. } { apply HI. }
      rewrite Ha. cbn. rewrite app_nil_r. eauto.
    + destruct (J_dispatch h s outs HT HI HR HJ) as (s' & o & Hd & HJ'). rewrite Hd. cbn. eauto.
Qed.

End Proofs.

Section Merges.
Context {E : Type} (stamp : E -> Z).
Notation before := (before stamp).

(** ** merges *)
Lemma before_antisym x y : before x y -> before y x -> fst x = fst y.
Proof. unfold AlignMerge_Spec.before. lia. Qed.

Lemma merge_prefixes : forall (a b : list (nat * E)) ra rb,
  (forall i, stream i a ++ ra i = stream i b ++ rb i) ->
  StronglySorted before a -> StronglySorted before b ->
  (forall x i e, In x a -> In e (ra i) -> before x (i, e)) ->
  (forall x i e, In x b -> In e (rb i) -> before x (i, e)) ->
  prefix a b \/ prefix b a.
Proof.
  induction a as [|[i e] a IH]; intros b ra rb HE Ha Hb HRa HRb; [left; exists b; reflexivity|].
  destruct b as [|[j f] b]; [right; eexists; reflexivity|].
  inversion Ha as [|? ? Ha' HFa]; subst. inversion Hb as [|? ? Hb' HFb]; subst. rewrite Forall_forall in HFa, HFb.
  assert (Hall : forall (x : nat * E) (l : list (nat * E)) (r : nat -> list E), In (snd x) (stream (fst x) l ++ r (fst x)) -> In x l \/ In (snd x) (r (fst x))).
  { intros [k y] l r H. apply in_app_or in H as [H|H]; auto. left. now apply stream_In in H. }
  assert (Hij : i = j).
  { destruct (Nat.eq_dec i j); auto. exfalso.
    assert (H1 : before (j, f) (i, e)).
    { assert (In e (stream i ((j, f) :: b) ++ rb i)) as Hin by (rewrite <- HE; apply in_or_app; left; apply stream_In; cbn; auto).
      apply (Hall (i, e) ((j, f) :: b) rb) in Hin as [[H|H]|H]; [congruence|auto|]. apply HRb; cbn; auto. }
    assert (H2 : before (i, e) (j, f)).
    { assert (In f (stream j ((i, e) :: a) ++ ra j)) as Hin by (rewrite HE; apply in_or_app; left; apply stream_In; cbn; auto).
      apply (Hall (j, f) ((i, e) :: a) ra) in Hin as [[H|H]|H]; [congruence|auto|]. apply HRa; cbn; auto. }
    pose proof (before_antisym _ _ H2 H1). auto. }
  subst j. assert (e = f) as <-.
  { specialize (HE i). rewrite !stream_cons, Nat.eqb_refl in HE. now injection HE. }
  destruct (IH b ra rb) as [[c Hc]|[c Hc]]; auto.
  - intros k. specialize (HE k). rewrite !stream_cons in HE. destruct (i =? k)%nat; auto. now injection HE.
  - intros x k y Hx. apply HRa. now right.
  - intros x k y Hx. apply HRb. now right.
  - left. exists c. now rewrite Hc.
  - right. exists c. now rewrite Hc.
Qed.
End Merges.
