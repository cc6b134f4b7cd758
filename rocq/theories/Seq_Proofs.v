From Coq Require Import List Arith ZArith Lia Bool Sorted Permutation.
From Verif Require Import Base RclTime Trace PermTac Seq_Model Seq_Spec.
Import ListNotations.
Local Open Scope Z_scope.

Section Proofs.
Context {E : Type} (stamp : E -> time).
Variable q : nat.
Variable delay : Z.
Hypothesis Hsys : system_stamps stamp.

Notation t_ := (at_ns stamp).
Notation state := (state E).
Notation op := (op E).
Notation add := (add stamp q).
Notation step := (step stamp q delay).
Notation run := (run stamp q delay).
Notation dispatch := (dispatch stamp delay).
Notation sorted := (nondecreasing t_).

Lemma sort_lt_ok a b : sort_lt stamp a b = Ok (t_ a <? t_ b).
Proof. unfold sort_lt, time_lt. now rewrite !Hsys. Qed.

(** ** insertion *)
Fixpoint insp (e : E) (l : list E) : list E :=
  match l with [] => [e] | x :: t => if t_ e <? t_ x then e :: l else x :: insp e t end.

Lemma ins_ok e l : ins stamp e l = Ok (insp e l).
Proof.
  induction l as [|x t IH]; cbn; auto. rewrite sort_lt_ok. cbn. destruct (t_ e <? t_ x); auto.
  rewrite IH. reflexivity.
Qed.

Lemma insp_perm e l : Permutation (e :: l) (insp e l).
Proof.
  induction l as [|x t IH]; cbn; auto. destruct (t_ e <? t_ x); auto.
  eapply Permutation_trans; [apply perm_swap|]. constructor. exact IH.
Qed.

Lemma insp_sorted e l : sorted l -> sorted (insp e l).
Proof.
  induction l as [|x t IH]; intros H; cbn.
  - repeat constructor.
  - inversion H as [|? ? Ht Hx]; subst. destruct (Z.ltb_spec (t_ e) (t_ x)) as [Hlt|Hge].
    + constructor; auto. rewrite Forall_forall in *. intros y [<-|Hy]; [lia|]. apply Hx in Hy. lia.
    + constructor; [apply IH; auto|]. rewrite Forall_forall in *. intros y Hy.
      eapply Permutation_in in Hy; [|apply Permutation_sym, insp_perm]. destruct Hy as [<-|Hy]; auto.
Qed.

Lemma insp_with_stamp t e l : sorted l ->
  with_stamp stamp t (insp e l) = with_stamp stamp t l ++ with_stamp stamp t [e].
Proof.
  induction l as [|x l IH]; intros H; [reflexivity|]. inversion H as [|? ? Ht Hx]; subst.
  cbn [insp]. destruct (Z.ltb_spec (t_ e) (t_ x)) as [Hlt|Hge].
  - unfold with_stamp. cbn [filter]. destruct (Z.eqb_spec (t_ e) t) as [He|He]; [|now rewrite app_nil_r].
    assert (Hnil : filter (fun e => t_ e =? t) (x :: l) = []).
    { apply Forall_forall in Hx || idtac.
      assert (Hall : forall y, In y (x :: l) -> (t_ y =? t) = false).
      { intros y Hy. apply Z.eqb_neq. rewrite Forall_forall in Hx. destruct Hy as [<-|Hy]; [lia|]. apply Hx in Hy. lia. }
      clear -Hall. induction (x :: l) as [|y m IHm]; auto. cbn. rewrite Hall by (cbn; auto). apply IHm. intros; apply Hall; cbn; auto. }
    cbn [filter] in Hnil. rewrite Hnil. reflexivity.
  - unfold with_stamp in *. cbn [filter]. rewrite IH by auto. destruct (t_ x =? t); reflexivity.
Qed.

(** ** key erase *)
Lemma erase_key_ok k l : erase_key stamp k l = Ok (filter (fun x => negb (t_ x =? t_ k)) l).
Proof.
  induction l as [|x t IH]; cbn; auto. rewrite !sort_lt_ok. cbn. rewrite IH. cbn. do 2 f_equal.
  destruct (Z.ltb_spec (t_ x) (t_ k)), (Z.ltb_spec (t_ k) (t_ x)), (Z.eqb_spec (t_ x) (t_ k)); cbn; auto; lia.
Qed.

(** ** add *)
Definition Inv (s : state) : Prop :=
  sorted (messages s) /\ clk (last_time s) = SystemClock /\
  (forall e, In e (messages s) -> ns (last_time s) <= t_ e).

Lemma init_inv : Inv init.
Proof. split; [constructor|split; auto]. intros e []. Qed.

(** [m] is the oldest stamp of the messages [l] *)
Definition oldest (l : list E) (m : Z) : Prop :=
  (exists e, In e l /\ t_ e = m) /\ forall e, In e l -> m <= t_ e.

Inductive added_to (s : state) (e : E) : state -> Prop :=
| A_late : t_ e < ns (last_time s) -> added_to s e s
| A_kept ms : ns (last_time s) <= t_ e -> (q = 0%nat \/ (length (messages s) < q)%nat) ->
    Permutation (e :: messages s) ms ->
    (forall t, with_stamp stamp t ms = with_stamp stamp t (messages s) ++ with_stamp stamp t [e]) ->
    added_to s e (mkState ms (last_time s))
| A_evict ms m : ns (last_time s) <= t_ e -> q <> 0%nat -> (q <= length (messages s))%nat ->
    Permutation (e :: messages s) ms -> oldest (e :: messages s) m ->
    (forall t, with_stamp stamp t ms = with_stamp stamp t (messages s) ++ with_stamp stamp t [e]) ->
    added_to s e (mkState (filter (fun x => negb (t_ x =? m)) ms) (last_time s)).

Lemma sorted_filter p l : sorted l -> sorted (filter p l).
Proof.
  intros H. induction H as [|x l Hl IH Hx]; cbn; [constructor|]. destruct (p x); auto. constructor; auto.
  rewrite Forall_forall in *. intros y Hy. apply filter_In in Hy as [Hy _]. auto.
Qed.

Lemma add_ok s e : Inv s -> exists s', add s e = Ok s' /\ added_to s e s' /\ Inv s'.
Proof.
  intros (HS & HC & HL). unfold Seq_Model.add, time_lt. rewrite Hsys, HC. cbn [clock_eqb bind].
  fold (t_ e). destruct (Z.ltb_spec (t_ e) (ns (last_time s))) as [Hlt|Hge].
  { exists s. split; auto. split; [now constructor|]. split; auto. }
  rewrite ins_ok. cbn [bind]. pose proof (insp_perm e (messages s)) as HP.
  pose proof (insp_sorted e _ HS) as HS'. pose proof (fun t => insp_with_stamp t e _ HS) as HW.
  assert (HB : forall x, In x (insp e (messages s)) -> ns (last_time s) <= t_ x).
  { intros x Hx. eapply Permutation_in in Hx; [|apply Permutation_sym; exact HP]. destruct Hx as [<-|Hx]; auto. }
  assert (Hlen : length (insp e (messages s)) = S (length (messages s))).
  { apply Permutation_length in HP. cbn in HP. auto. }
  destruct (Nat.eqb_spec q 0) as [Hq|Hq]; cbn [negb andb].
  { eexists. split; [reflexivity|]. split; [constructor; auto|]. split; cbn; auto. }
  destruct (Nat.ltb_spec q (length (insp e (messages s)))) as [Hov|Hov].
  - destruct (insp e (messages s)) as [|k l] eqn:Hins; [cbn in Hlen; lia|].
    rewrite erase_key_ok. cbn [bind]. eexists. split; [reflexivity|]. split.
    + rewrite <- Hins in *. apply A_evict; auto; [lia|]. split.
      * exists k. split; auto. eapply Permutation_in; [apply Permutation_sym; exact HP|]. rewrite Hins; cbn; auto.
      * intros x Hx. eapply Permutation_in in Hx; [|exact HP]. rewrite Hins in *.
        destruct Hx as [<-|Hx]; [lia|]. inversion HS' as [|? ? _ Hk]; subst. rewrite Forall_forall in Hk. now apply Hk.
    + split; [|split]; cbn [messages last_time]; auto.
      * now apply sorted_filter.
      * intros x Hx. apply filter_In in Hx as [Hx _]. auto.
  - eexists. split; [reflexivity|]. split; [constructor; auto; lia|]. split; cbn; auto.
Qed.

(** ** dispatch *)
Lemma dispatch_ok nows ms last :
  clk last = SystemClock ->
  exists rest outs last', dispatch nows ms last = Ok (mkState rest last', outs) /\ ms = outs ++ rest /\
    clk last' = SystemClock /\
    (forall k e, nth_error outs k = Some e -> t_ e + delay <= nows k) /\
    (forall e t, rest = e :: t -> nows (length outs) < t_ e + delay) /\
    (match rev outs with [] => last' = last | e :: _ => last' = stamp e end).
Proof.
  revert nows last; induction ms as [|e ms IH]; intros nows last Hc; cbn.
  - exists [], [], last. repeat split; auto. + intros [|k] e; discriminate. + discriminate.
  - unfold time_le. cbn [time_add clk ns]. rewrite Hsys. cbn [clock_eqb bind]. fold (t_ e).
    destruct (Z.leb_spec (t_ e + delay) (nows 0%nat)) as [Hd|Hd].
    + destruct (IH (fun k => nows (S k)) (stamp e) (Hsys e)) as (rest & outs & last' & H1 & H2 & H3 & H4 & H5 & H6).
      rewrite H1. cbn. exists rest, (e :: outs), last'. split; auto. split; [cbn; congruence|]. split; auto.
      split; [|split].
      * intros [|k] x Hx; cbn in Hx; [injection Hx as <-; auto|]. apply (H4 k); auto.
      * intros x t Hx. cbn. apply (H5 x t Hx).
      * cbn. destruct (rev outs) as [|y l]; auto.
    + exists (e :: ms), [], last. repeat split; auto. * intros [|k] x; discriminate.
      * intros x t [= <- <-]. cbn. auto.
Qed.

(** ** the run invariant *)
Definition Rejected (h : list op) (r : E) : Prop :=
  exists h1 h2 s1 o1, h = h1 ++ Add r :: h2 /\ run init h1 = Ok (s1, o1) /\
    (t_ r < 0 \/ exists d, In d o1 /\ t_ r < t_ d).

Definition Evicted (h : list op) (r : E) : Prop :=
  exists h1 h2 e s1 o1, h = h1 ++ Add e :: h2 /\ run init h1 = Ok (s1, o1) /\
    q <> 0%nat /\ (q <= length (messages s1))%nat /\ In r (e :: messages s1) /\
    (forall x, In x (e :: messages s1) -> t_ r <= t_ x).

Lemma run_snoc s h x :
  run s (h ++ [x]) =
  bind (run s h) (fun '(s1, o1) => bind (step s1 x) (fun '(s2, o2) => Ok (s2, o1 ++ o2))).
Proof.
  revert s; induction h as [|y h IH]; intros s; cbn [app Seq_Model.run].
  - cbn. destruct (step s x) as [[s1 o1]|]; cbn; auto. now rewrite app_nil_r.
  - destruct (step s y) as [[s1 o1]|]; cbn; auto. rewrite IH.
    destruct (run s1 h) as [[s2 o2]|]; cbn; auto. destruct (step s2 x) as [[s3 o3]|]; cbn; auto.
    now rewrite app_assoc.
Qed.

Lemma added_snoc (h : list op) (o : op) : added (h ++ [o]) = added h ++ match o with Add e => [e] | Tick _ => [] end.
Proof. unfold added. rewrite flat_map_app. cbn. now rewrite app_nil_r. Qed.

Lemma with_stamp_app t a b : with_stamp stamp t (a ++ b) = with_stamp stamp t a ++ with_stamp stamp t b.
Proof. apply filter_app. Qed.

Lemma with_stamp_filter_subseq t p l : subseq (with_stamp stamp t (filter p l)) (with_stamp stamp t l).
Proof.
  unfold with_stamp. induction l as [|x l IH]; cbn; [constructor|].
  destruct (p x); cbn; destruct (t_ x =? t); auto; constructor; auto.
Qed.

Lemma filter_split_perm (p : E -> bool) l : Permutation l (filter (fun x => negb (p x)) l ++ filter p l).
Proof.
  induction l as [|x l IH]; cbn; auto. destruct (p x); cbn.
  - eapply Permutation_trans; [apply perm_skip, IH|]. apply Permutation_middle.
  - constructor. auto.
Qed.

Definition RInv (h : list op) (s : state) (outs : list E) : Prop :=
  Inv s /\ sorted outs /\ (forall e, In e outs -> t_ e <= ns (last_time s)) /\
  (ns (last_time s) = 0 \/ exists d, In d outs /\ t_ d = ns (last_time s)) /\
  (q <> 0%nat -> (length (messages s) <= q)%nat) /\
  (forall t, subseq (with_stamp stamp t (outs ++ messages s)) (with_stamp stamp t (added h))) /\
  (exists R V, Permutation (added h) (outs ++ R ++ V ++ messages s) /\
     (forall r, In r R -> Rejected h r) /\ (forall r, In r V -> Evicted h r)).

Lemma rejected_snoc h o r : Rejected h r -> Rejected (h ++ [o]) r.
Proof.
  intros (h1 & h2 & s1 & o1 & -> & H). exists h1, (h2 ++ [o]), s1, o1. rewrite <- app_assoc. auto.
Qed.
Lemma evicted_snoc h o r : Evicted h r -> Evicted (h ++ [o]) r.
Proof.
  intros (h1 & h2 & e & s1 & o1 & -> & H). exists h1, (h2 ++ [o]), e, s1, o1. rewrite <- app_assoc. auto.
Qed.

Lemma step_rinv h s outs o :
  run init h = Ok (s, outs) -> RInv h s outs ->
  exists s' o', step s o = Ok (s', o') /\ RInv (h ++ [o]) s' (outs ++ o').
Proof.
  intros Hrun (HI & HSo & HLo & HLa & HB & HW & R & V & HP & HR & HV).
  destruct o as [e|nows]; cbn [Seq_Model.step].
  - destruct (add_ok s e HI) as (s' & Ha & Hat & HI'). rewrite Ha. cbn.
    exists s', []. split; auto. rewrite app_nil_r.
    assert (Hlast : last_time s' = last_time s) by (inversion Hat; auto).
    split; auto. split; auto. rewrite Hlast. split; auto. split; auto.
    inversion Hat as [Hlt Heq|ms Hge Hq HPm HWm Heq|ms m Hge Hq Hlen HPm Hold HWm Heq]; subst s'; cbn [messages last_time] in *.
    + split; auto. split.
      { intros t. rewrite added_snoc, (with_stamp_app t (added h)). rewrite <- (app_nil_r (with_stamp stamp t (outs ++ messages s))).
        apply subseq_app; auto. clear. induction (with_stamp stamp t [e]); constructor; auto. }
      exists (R ++ [e]), V. rewrite added_snoc. split; [|split].
      * eapply Permutation_trans; [apply Permutation_app_tail; exact HP|]. perm.
      * intros r Hr. apply in_app_or in Hr as [Hr|[<-|[]]]; [apply rejected_snoc; auto|].
        exists h, [], s, outs. repeat split; auto. destruct HLa as [H0|(d & Hd & Hd')]; [left; lia|].
        right. exists d. split; auto. lia.
      * intros r Hr. apply evicted_snoc; auto.
    + split.
      { intros Hq0. apply Permutation_length in HPm. cbn in HPm. lia. }
      split.
      { intros t. specialize (HW t). rewrite with_stamp_app in *. rewrite added_snoc, HWm, app_assoc, with_stamp_app.
        apply subseq_app; auto. apply subseq_refl. }
      exists R, V. rewrite added_snoc. split; [|split].
      * eapply Permutation_trans; [apply Permutation_app_tail; exact HP|].
        apply Permutation_trans with (outs ++ R ++ V ++ (e :: messages s)).
        { change (e :: messages s) with ([e] ++ messages s). perm. }
        repeat apply Permutation_app_head. exact HPm.
      * intros r Hr. apply rejected_snoc; auto.
      * intros r Hr. apply evicted_snoc; auto.
    + assert (Hlt : (length (filter (fun x => negb (t_ x =? m)%Z) ms) < length ms)%nat).
      { destruct Hold as [(x & Hx & Hxm) _]. eapply Permutation_in in Hx; [|exact HPm].
        clear -Hx Hxm. induction ms as [|y ms IH]; [destruct Hx|]. cbn.
        assert (Hle : (length (filter (fun x => negb (t_ x =? m)%Z) ms) <= length ms)%nat).
        { clear. induction ms as [|z ms IH]; cbn; auto. destruct (negb (t_ z =? m)); cbn; lia. }
        destruct Hx as [->|Hx].
        - apply Z.eqb_eq in Hxm. rewrite Hxm. cbn. lia.
        - destruct (negb (t_ y =? m)); cbn; [|lia]. apply IH in Hx. lia. }
      split.
      { intros Hq0. apply Permutation_length in HPm. cbn in HPm. specialize (HB Hq0). lia. }
      split.
      { intros t. specialize (HW t). rewrite with_stamp_app in *.
        rewrite added_snoc, with_stamp_app.
        eapply subseq_trans; [apply subseq_app; [apply subseq_refl|apply with_stamp_filter_subseq]|].
        rewrite HWm, app_assoc. apply subseq_app; auto. apply subseq_refl. }
      exists R, (V ++ filter (fun x => t_ x =? m) ms). rewrite added_snoc. split; [|split].
      * eapply Permutation_trans; [apply Permutation_app_tail; exact HP|].
        apply Permutation_trans with (outs ++ R ++ V ++ (e :: messages s)).
        { change (e :: messages s) with ([e] ++ messages s). perm. }
        eapply Permutation_trans; [do 3 apply Permutation_app_head; exact HPm|].
        eapply Permutation_trans; [do 3 apply Permutation_app_head; apply (filter_split_perm (fun x => t_ x =? m))|].
        perm.
      * intros r Hr. apply rejected_snoc; auto.
      * intros r Hr. apply in_app_or in Hr as [Hr|Hr]; [apply evicted_snoc; auto|].
        apply filter_In in Hr as [Hr Hm]. apply Z.eqb_eq in Hm.
        exists h, [], e, s, outs. repeat split; auto.
        -- eapply Permutation_in; [apply Permutation_sym; exact HPm|]. auto.
        -- intros x Hx. destruct Hold as [_ Hmin]. apply Hmin in Hx. lia.
  - destruct HI as (HS & HC & HL).
    destruct (dispatch_ok nows (messages s) (last_time s) HC) as (rest & o' & last' & H1 & H2 & H3 & H4 & H5 & H6).
    exists (mkState rest last'), o'. split; auto.
    rewrite H2 in HS. apply StronglySorted_app in HS as (HSo' & HSr & HSx).
    assert (Hin : forall e, In e o' -> ns (last_time s) <= t_ e).
    { intros e He. apply HL. rewrite H2. apply in_or_app; auto. }
    assert (Hlast : ns (last_time s) <= ns last' /\ (forall e, In e o' -> t_ e <= ns last') /\
                    (forall e, In e rest -> ns last' <= t_ e) /\
                    (ns last' = ns (last_time s) \/ exists d, In d o' /\ t_ d = ns last')).
    { destruct (rev o') as [|d l] eqn:Hrev.
      - assert (o' = []) by (rewrite <- (rev_involutive o'), Hrev; reflexivity). subst o'. cbn in *. subst last'.
        split; [lia|]. split; [intros e []|]. split; [|auto]. intros e He. apply HL. rewrite H2. auto.
      - assert (Ho : o' = rev l ++ [d]) by (rewrite <- (rev_involutive o'), Hrev; reflexivity).
        subst last'. fold (t_ d).
        assert (Hd : In d o') by (rewrite Ho; apply in_or_app; cbn; auto).
        split; [apply Hin; auto|]. split; [|split; [|right; eauto]].
        + intros e He. rewrite Ho in He, HSo'. apply StronglySorted_app in HSo' as (_ & _ & Hx).
          apply in_app_or in He as [He|[<-|[]]]; [|lia]. apply (Hx e d He). cbn; auto.
        + intros e He. apply (HSx d e); auto. }
    destruct Hlast as (L1 & L2 & L3 & L4).
    split; [|split; [|split; [|split; [|split; [|split]]]]]; cbn [messages last_time].
    + split; [|split]; cbn; auto.
    + apply StronglySorted_app. split; auto. split; auto. intros a b Ha Hb. apply HLo in Ha. apply Hin in Hb. lia.
    + intros e He. apply in_app_or in He as [He|He]; auto. apply HLo in He. lia.
    + destruct L4 as [L4|(d & Hd & Hd')]; [|right; exists d; split; auto; apply in_or_app; auto].
      rewrite L4. destruct HLa as [|(d & Hd & Hd')]; auto. right. exists d. split; auto. apply in_or_app; auto.
    + intros Hq. specialize (HB Hq). rewrite H2, app_length in HB. lia.
    + intros t. rewrite added_snoc, app_nil_r, <- app_assoc. specialize (HW t). now rewrite H2 in HW.
    + exists R, V. rewrite added_snoc, app_nil_r. split; [|split].
      * eapply Permutation_trans; [exact HP|]. rewrite H2. perm.
      * intros r Hr. apply rejected_snoc; auto.
      * intros r Hr. apply evicted_snoc; auto.
Qed.

Lemma run_rinv h : exists s outs, run init h = Ok (s, outs) /\ RInv h s outs.
Proof.
  induction h as [|o h IH] using rev_ind.
  - exists init, []. split; auto. split; [apply init_inv|]. split; [constructor|]. split; [intros e []|].
    split; [left; reflexivity|]. split; [cbn; lia|]. split; [intros t; constructor|].
    exists [], []. split; [constructor|]. split; intros r [].
  - destruct IH as (s & outs & Hr & HI). destruct (step_rinv h s outs o Hr HI) as (s' & o' & Hs & HI').
    exists s', (outs ++ o'). rewrite run_snoc, Hr. cbn [bind]. rewrite Hs. cbn. auto.
Qed.

(** ** only additions, distinct stamps: the newest [q] are kept *)
Lemma filter_unique m (l : list E) :
  NoDup (map t_ l) -> (exists e, In e l /\ t_ e = m) ->
  exists v, t_ v = m /\ Permutation l (v :: filter (fun x => negb (t_ x =? m)) l).
Proof.
  induction l as [|x l IH]; intros ND (e & He & Hm); [destruct He|]. cbn in ND. inversion ND as [|? ? Hx ND']; subst.
  cbn. destruct (Z.eqb_spec (t_ x) (t_ e)) as [Heq|Hne]; cbn.
  - exists x. split; auto. constructor.
    assert (Hid : filter (fun y => negb (t_ y =? t_ e)) l = l).
    { clear -Hx Heq. induction l as [|y l IH]; auto. cbn.
      destruct (Z.eqb_spec (t_ y) (t_ e)) as [Hy|Hy]; cbn.
      - exfalso. apply Hx. cbn. left. lia.
      - f_equal. apply IH. intros H; apply Hx; cbn; auto. }
    rewrite Hid. reflexivity.
  - destruct He as [->|He]; [congruence|]. destruct (IH ND' ltac:(eauto)) as (v & Hv & HP).
    exists v. split; auto. eapply Permutation_trans; [apply perm_skip; exact HP|]. apply perm_swap.
Qed.

Lemma adds_keep_newest es :
  (forall e, In e es -> 0 <= t_ e) -> NoDup (map t_ es) -> q <> 0%nat ->
  exists s V, run init (map Add es) = Ok (s, []) /\ ns (last_time s) = 0 /\ Inv s /\
    Permutation es (V ++ messages s) /\ length (messages s) = Nat.min q (length es) /\
    (forall v m, In v V -> In m (messages s) -> t_ v < t_ m) /\
    (V = [] \/ length (messages s) = q).
Proof.
  intros Hpos ND Hq. induction es as [|e es IH] using rev_ind.
  - exists init, []. split; auto. split; auto. split; [apply init_inv|]. split; [constructor|]. split; [cbn; lia|].
    split; auto. intros v m [].
  - rewrite map_app in ND. cbn in ND.
    assert (ND0 : NoDup (map t_ es)).
    { apply NoDup_remove_1 in ND. now rewrite app_nil_r in ND. }
    assert (Hnew : forall x, In x es -> t_ x <> t_ e).
    { intros x Hx Heq. apply NoDup_remove_2 in ND. apply ND. rewrite app_nil_r, <- Heq. now apply in_map. }
    destruct IH as (s & V & Hr & Hl & HI & HP & HL & HV & HF); auto.
    { intros x Hx. apply Hpos, in_or_app; auto. }
    rewrite map_app. cbn [map]. rewrite run_snoc, Hr. cbn [bind]. unfold Seq_Model.step.
    destruct (add_ok s e HI) as (s' & Ha & Hat & HI'). rewrite Ha. cbn [bind app].
    assert (He : 0 <= t_ e) by (apply Hpos, in_or_app; cbn; auto).
    rewrite app_length. cbn [length].
    assert (Hms : forall x, In x (messages s) -> In x es).
    { intros x Hx. eapply Permutation_in; [apply Permutation_sym; exact HP|]. apply in_or_app; auto. }
    inversion Hat as [Hlt Heq|ms Hge Hq' HPm HWm Heq|ms m Hge Hq' Hlen HPm Hold HWm Heq]; subst s'; [lia| |].
    + exists (mkState ms (last_time s)), V. split; auto. split; auto. split; auto. cbn [messages].
      assert (Hlen : length ms = S (length (messages s))) by (apply Permutation_length in HPm; cbn in HPm; auto).
      assert (HV0 : V = []). { destruct HF as [|HF]; auto. lia. }
      subst V. cbn in *. split; [|split; [|split]].
      * eapply Permutation_trans; [apply Permutation_app_tail; exact HP|].
        eapply Permutation_trans; [|exact HPm]. apply Permutation_sym, Permutation_cons_append.
      * apply Permutation_length in HP. lia.
      * intros v x [].
      * auto.
    + assert (NDms : NoDup (map t_ ms)).
      { eapply Permutation_NoDup; [apply Permutation_map; exact HPm|]. cbn. constructor.
        - intros Hin. apply in_map_iff in Hin as (x & Hx & Hxi). apply (Hnew x); auto.
        - assert (ND1 : NoDup (map t_ (V ++ messages s))) by (eapply Permutation_NoDup; [apply Permutation_map; exact HP|auto]).
          rewrite map_app in ND1. clear -ND1. induction (map t_ V); auto. inversion ND1; auto. }
      destruct Hold as [(x & Hx & Hxm) Hmin].
      destruct (filter_unique m ms NDms) as (v & Hv & HPv).
      { exists x. split; auto. eapply Permutation_in; eauto. }
      set (F := filter (fun x => negb (t_ x =? m)) ms) in *.
      assert (HFl : length F = length (messages s)).
      { apply Permutation_length in HPv, HPm. cbn in *. lia. }
      assert (Hfull : length (messages s) = q) by lia.
      exists (mkState F (last_time s)), (V ++ [v]). split; auto. split; auto. split; auto. cbn [messages].
      split; [|split; [|split]].
      * eapply Permutation_trans; [apply Permutation_app_tail; exact HP|].
        apply Permutation_trans with (V ++ (e :: messages s)).
        { change (e :: messages s) with ([e] ++ messages s). perm. }
        rewrite <- app_assoc. apply Permutation_app_head. cbn.
        eapply Permutation_trans; [exact HPm|exact HPv].
      * apply Permutation_length in HP. rewrite app_length in HP. lia.
      * assert (HFm : forall y, In y F -> m < t_ y).
        { intros y Hy. apply filter_In in Hy as [Hy Hne]. apply negb_true_iff, Z.eqb_neq in Hne.
          eapply Permutation_in in Hy; [|apply Permutation_sym; exact HPm]. specialize (Hmin y Hy). lia. }
        intros w y Hw Hy. pose proof (HFm y Hy) as Hmy.
        apply in_app_or in Hw as [Hw|[<-|[]]]; [|lia].
        apply filter_In in Hy as [Hy _]. eapply Permutation_in in Hy; [|apply Permutation_sym; exact HPm].
        destruct Hy as [<-|Hy]; [|now apply HV].
        (* the new message against an older evicted one: some kept message is not newer *)
        assert (Hvin : In v (e :: messages s)).
        { eapply Permutation_in; [apply Permutation_sym; exact HPm|]. eapply Permutation_in; [apply Permutation_sym; exact HPv|]. cbn; auto. }
        destruct Hvin as [<-|Hvin]; [lia|]. specialize (HV w v Hw Hvin). lia.
      * right. lia.
Qed.
End Proofs.
