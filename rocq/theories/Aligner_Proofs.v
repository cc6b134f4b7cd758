From Coq Require Import List Arith ZArith Lia Bool Sorted Permutation.
From Verif Require Import Base RclTime Trace PermTac Aligner_Model Aligner_Spec.
Import ListNotations.
Local Open Scope Z_scope.

Section Proofs.
Context {E : Type} (stamp : E -> Z).
Variable n : nat.
Variable timeout : Z.

Notation queue := (queue E).
Notation state := (state E).
Notation op := (op E).
Notation add := (add stamp).
Notation step := (step stamp timeout).
Notation run := (run stamp timeout).
Notation dispatch_first := (dispatch_first stamp timeout).
Notation dispatch_loop := (dispatch_loop stamp timeout).
Notation dispatch := (dispatch stamp timeout).
Notation fts := (first_time_stamp stamp).
Notation sorted := (nondecreasing stamp).
Local Notation init := (init (E := E) n).

Definition qat (j : nat) (s : state) : queue := nth j (queues s) queue_init.
Definition touch (q : queue) : queue := fst (fts q).
Definition ts (q : queue) : Z := snd (fts q).

(** ** insertion *)
Lemma ins_perm e l : Permutation (e :: l) (ins stamp e l).
Proof.
  induction l as [|x t IH]; cbn; auto. destruct (stamp e <? stamp x); auto.
  eapply Permutation_trans; [apply perm_swap|]. constructor. exact IH.
Qed.

Lemma ins_sorted e l : sorted l -> sorted (ins stamp e l).
Proof.
  induction l as [|x t IH]; intros H; cbn.
  - repeat constructor.
  - inversion H as [|? ? Ht Hx]; subst. destruct (Z.ltb_spec (stamp e) (stamp x)) as [Hlt|Hge].
    + constructor; auto. rewrite Forall_forall in *. intros y [<-|Hy]; [lia|]. apply Hx in Hy. lia.
    + constructor; [apply IH; auto|]. rewrite Forall_forall in *. intros y Hy.
      eapply Permutation_in in Hy; [|apply Permutation_sym, ins_perm]. destruct Hy as [<-|Hy]; auto.
Qed.

(** ** touching *)
Lemma touch_evs q : evs (touch q) = evs q.
Proof. unfold touch, first_time_stamp. destruct (evs q) eqn:H; cbn; auto. destruct (active q); auto. Qed.
Lemma touch_period q : period (touch q) = period q.
Proof. unfold touch, first_time_stamp. destruct (evs q); cbn; auto. destruct (active q); auto. Qed.
Lemma touch_processed q : processed (touch q) = processed q.
Proof. unfold touch, first_time_stamp. destruct (evs q); cbn; auto. destruct (active q); auto. Qed.
Lemma touch_dropped q : dropped (touch q) = dropped q.
Proof. unfold touch, first_time_stamp. destruct (evs q); cbn; auto. destruct (active q); auto. Qed.
Lemma touch_empty q : evs q = [] -> touch q = q.
Proof. unfold touch, first_time_stamp. intros ->. destruct (active q); auto. Qed.
Lemma touch_next q e t : evs q = e :: t -> next_ts (touch q) = stamp e + period q /\ active (touch q) = true.
Proof. unfold touch, first_time_stamp. intros ->. auto. Qed.
Lemma ts_nonempty q e t : evs q = e :: t -> ts q = stamp e.
Proof. unfold ts, first_time_stamp. intros ->. auto. Qed.
Lemma ts_empty q : evs q = [] -> ts q = if active q then next_ts q else int64_max.
Proof. unfold ts, first_time_stamp. intros ->. destruct (active q); auto. Qed.
Lemma touch_init : touch (queue_init (E := E)) = queue_init.
Proof. reflexivity. Qed.

(** ** min_element *)
Lemma min_element_spec l idx best b :
  (best < idx)%nat ->
  let r := min_element l idx best b in
  (r = best /\ (forall x, In x l -> b <= x)) \/
  (exists k x, r = (idx + k)%nat /\ nth_error l k = Some x /\ x < b /\ forall y, In y l -> x <= y).
Proof.
  revert idx best b; induction l as [|t l IH]; intros idx best b Hlt; cbn.
  - left. split; auto. intros x [].
  - destruct (Z.ltb_spec t b) as [Htb|Htb].
    + destruct (IH (S idx) idx t ltac:(lia)) as [[Hr Hm]|(k & x & Hr & Hk & Hx & Hm)]; right.
      * exists 0%nat, t. rewrite Hr. repeat split; auto. intros y [<-|Hy]; [lia|auto].
      * exists (S k), x. rewrite Hr. repeat split; auto; try lia. intros y [<-|Hy]; [lia|auto].
    + destruct (IH (S idx) best b ltac:(lia)) as [[Hr Hm]|(k & x & Hr & Hk & Hx & Hm)].
      * left. split; auto. intros x [<-|Hx]; auto.
      * right. exists (S k), x. rewrite Hr. repeat split; auto; try lia. intros y [<-|Hy]; [lia|auto].
Qed.

Lemma first_sample_spec (l : list Z) : l <> [] ->
  exists x, nth_error l (first_sample_idx l) = Some x /\ forall y, In y l -> x <= y.
Proof.
  intros H. destruct l as [|t l]; [congruence|]. cbn [first_sample_idx].
  destruct (min_element_spec l 1 0 t ltac:(lia)) as [[Hr Hm]|(k & x & Hr & Hk & Hx & Hm)].
  - rewrite Hr. exists t. split; auto. intros y [<-|Hy]; [lia|auto].
  - rewrite Hr. exists x. split; auto. intros y [<-|Hy]; [lia|auto].
Qed.

(** ** one dispatchFirstMessage *)
Inductive micro (s : state) : state -> list (nat * E) -> bool -> Prop :=
| M_forward idx e t qs' :
    (idx < n)%nat -> evs (qat idx s) = e :: t ->
    (forall j, (j < n)%nat -> stamp e <= ts (qat j s)) ->
    length qs' = n ->
    (forall j, nth j qs' queue_init = if Nat.eqb j idx then pop_first (touch (qat j s)) else touch (qat j s)) ->
    micro s (mkState qs' (last_in s) (stamp e)) [(idx, e)] true
| M_timeout idx qs' :
    (idx < n)%nat -> evs (qat idx s) = [] ->
    (forall j, (j < n)%nat -> ts (qat idx s) <= ts (qat j s)) ->
    timeout <= last_in s - ts (qat idx s) ->
    length qs' = n ->
    (forall j, nth j qs' queue_init = if Nat.eqb j idx then set_active false (qat j s) else touch (qat j s)) ->
    micro s (mkState qs' (last_in s) (last_out s)) [] true
| M_stop idx qs' :
    (idx < n)%nat -> evs (qat idx s) = [] ->
    (forall j, (j < n)%nat -> ts (qat idx s) <= ts (qat j s)) ->
    last_in s - ts (qat idx s) < timeout ->
    length qs' = n ->
    (forall j, nth j qs' queue_init = touch (qat j s)) ->
    micro s (mkState qs' (last_in s) (last_out s)) [] false.

Lemma nth_map_touch j (qs : list queue) :
  nth j (map fst (map fts qs)) queue_init = touch (nth j qs queue_init).
Proof. rewrite map_map. apply (map_nth touch qs queue_init j). Qed.

Lemma dispatch_first_micro s :
  (0 < n)%nat -> length (queues s) = n ->
  exists s' o b, dispatch_first s = Ok (s', o, b) /\ micro s s' o b.
Proof.
  intros Hn HL. unfold Aligner_Model.dispatch_first.
  set (l := map snd (map fts (queues s))).
  assert (Hl : l <> []). { unfold l. destruct (queues s); [cbn in HL; lia|discriminate]. }
  destruct (first_sample_spec l Hl) as (x & Hx & Hmin).
  set (idx := first_sample_idx l) in *.
  assert (Hidx : (idx < n)%nat).
  { rewrite <- HL. replace (length (queues s)) with (length l) by (unfold l; now rewrite !map_length).
    apply nth_error_Some. congruence. }
  assert (Hq : nth_error (queues s) idx = Some (qat idx s)) by (apply nth_error_nth'; lia).
  assert (Hx' : x = ts (qat idx s)).
  { unfold l in Hx. rewrite map_map in Hx. rewrite nth_error_map, Hq in Hx. cbn in Hx. now injection Hx. }
  assert (Hm : forall j, (j < n)%nat -> ts (qat idx s) <= ts (qat j s)).
  { intros j Hj. rewrite <- Hx'. apply Hmin. unfold l. rewrite map_map. apply (in_map (fun q => snd (fts q))).
    apply nth_In. lia. }
  assert (Hnt : nth_error (map fst (map fts (queues s))) idx = Some (touch (qat idx s))).
  { rewrite map_map, nth_error_map, Hq. reflexivity. }
  rewrite Hnt, touch_evs.
  destruct (evs (qat idx s)) as [|e t] eqn:He.
  - rewrite touch_empty by auto. fold (ts (qat idx s)).
    destruct (Z.leb_spec timeout (last_in s - ts (qat idx s))) as [Ht|Ht].
    + eexists _, _, _. split; [reflexivity|]. eapply (M_timeout s idx); eauto.
      * now rewrite upd_length, !map_length.
      * intros j. destruct (Nat.eqb_spec j idx) as [->|Hj].
        -- rewrite nth_upd_eq; auto. now rewrite !map_length, HL.
        -- rewrite nth_upd_neq by auto. apply nth_map_touch.
    + eexists _, _, _. split; [reflexivity|]. eapply (M_stop s idx); eauto.
      * now rewrite !map_length.
      * intros j. apply nth_map_touch.
  - eexists _, _, _. split; [reflexivity|]. eapply (M_forward s idx); eauto.
    + intros j Hj. rewrite <- (ts_nonempty _ _ _ He). auto.
    + now rewrite upd_length, !map_length.
    + intros j. destruct (Nat.eqb_spec j idx) as [->|Hj].
      * rewrite nth_upd_eq; auto. now rewrite !map_length, HL.
      * rewrite nth_upd_neq by auto. apply nth_map_touch.
Qed.

(** ** the measure of the loop *)
Definition wq (q : queue) : nat :=
  2 * length (evs q) + match evs q with [] => if active q then 1 else 0 | _ => 0 end.
Definition w (s : state) : nat := list_sum (map wq (queues s)).

Lemma sum_ext_le (f g : nat -> nat) m k :
  (k < m)%nat -> (forall j, (j < m)%nat -> j <> k -> (f j <= g j)%nat) -> (f k < g k)%nat ->
  (list_sum (map f (seq 0 m)) < list_sum (map g (seq 0 m)))%nat.
Proof.
  intros Hk Hle Hlt.
  assert (H1 : forall a b, (a + b <= m)%nat -> (k < a \/ a + b <= k)%nat -> (list_sum (map f (seq a b)) <= list_sum (map g (seq a b)))%nat).
  { intros a b; revert a; induction b as [|b IH]; intros a Hab Hka; cbn; auto.
    specialize (Hle a ltac:(lia) ltac:(lia)). specialize (IH (S a) ltac:(lia) ltac:(lia)). unfold list_sum in *. lia. }
  replace m with (k + (1 + (m - k - 1)))%nat by lia.
  rewrite !seq_app, !map_app, !list_sum_app. cbn [seq map list_sum fold_right].
  pose proof (H1 0%nat k ltac:(lia) ltac:(lia)). pose proof (H1 (0 + k + 1)%nat (m - k - 1)%nat ltac:(lia) ltac:(lia)).
  cbn [plus] in *. unfold list_sum in *. cbn. lia.
Qed.

Lemma sum_nth (f : queue -> nat) (qs : list queue) :
  list_sum (map f qs) = list_sum (map (fun j => f (nth j qs queue_init)) (seq 0 (length qs))).
Proof.
  induction qs as [|q qs IH]; auto. cbn [length seq map]. rewrite <- seq_shift, map_map. cbn [nth].
  cbn [list_sum fold_right]. unfold list_sum in *. cbn. rewrite IH. reflexivity.
Qed.

Lemma wq_touch q : wq (touch q) = wq q.
Proof.
  unfold wq. rewrite touch_evs. destruct (evs q) eqn:H; auto. now rewrite touch_empty.
Qed.

Lemma micro_decreases s s' o :
  length (queues s) = n -> last_in s < int64_max -> 0 <= timeout ->
  micro s s' o true -> (w s' < w s)%nat.
Proof.
  intros HL Hin Hto H. unfold w. rewrite !sum_nth. rewrite HL.
  inversion H; subst; cbn [queues last_in last_out].
  - rewrite H3. apply (sum_ext_le _ _ n idx); auto.
    + intros j Hj Hne. rewrite H4. apply Nat.eqb_neq in Hne. rewrite Hne, wq_touch. fold (qat j s). lia.
    + rewrite H4, Nat.eqb_refl. fold (qat idx s). unfold wq. cbn [pop_first evs active]. rewrite touch_evs, H1. cbn [tl length].
      destruct t; cbn [length]; [destruct (active (touch (qat idx s)))|]; lia.
  - rewrite H4. apply (sum_ext_le _ _ n idx); auto.
    + intros j Hj Hne. rewrite H5. apply Nat.eqb_neq in Hne. rewrite Hne, wq_touch. fold (qat j s). lia.
    + rewrite H5, Nat.eqb_refl. fold (qat idx s). unfold wq. cbn [set_active evs active]. rewrite H1. cbn [length].
      rewrite ts_empty in H3 by auto. destruct (active (qat idx s)); lia.
Qed.

Lemma list_sum_cons a l : list_sum (a :: l) = (a + list_sum l)%nat.
Proof. reflexivity. Qed.

Lemma fuel_enough s : (w s < fuel_for s)%nat.
Proof.
  unfold fuel_for, w. induction (queues s) as [|q qs IH]; [cbn; lia|].
  cbn [map length]. rewrite !list_sum_cons.
  assert ((wq q <= 2 * length (evs q) + 1)%nat).
  { unfold wq. destruct (evs q); [destruct (active q)|]; lia. }
  lia.
Qed.

(** ** induction over the loop *)
Lemma loop_ind (P : state -> list (nat * E) -> Prop) :
  (0 < n)%nat -> 0 <= timeout ->
  (forall s o, P s o -> length (queues s) = n /\ last_in s < int64_max) ->
  (forall s s' o o' b, P s o -> dispatch_first s = Ok (s', o', b) -> micro s s' o' b -> P s' (o ++ o')) ->
  forall fuel s o, (w s < fuel)%nat -> P s o ->
    exists s' o', dispatch_loop fuel s = Ok (s', o') /\ P s' (o ++ o') /\
      exists s0, micro s0 s' [] false.
Proof.
  intros Hn Hto Hwf Hstep. induction fuel as [|fuel IH]; intros s o Hf HP; [lia|]. cbn.
  destruct (Hwf _ _ HP) as [HL Hin].
  destruct (dispatch_first_micro s Hn HL) as (s1 & o1 & b & Hd & Hm). rewrite Hd. cbn.
  pose proof (Hstep _ _ _ _ _ HP Hd Hm) as HP1. destruct b.
  - pose proof (micro_decreases _ _ _ HL Hin Hto Hm).
    destruct (IH s1 (o ++ o1) ltac:(lia) HP1) as (s2 & o2 & Hl & HP2 & Hst).
    rewrite Hl. cbn. exists s2, (o1 ++ o2). rewrite app_assoc. auto.
  - assert (o1 = []) by (inversion Hm; auto). subst o1. exists s1, []. repeat split; auto.
    eauto.
Qed.

(** ** the invariant *)
Definition key (x : nat * E) : Z := stamp (snd x).

Hypothesis Hstamp : forall e, stamp e < int64_max.

Notation reach := (reach stamp n timeout).

Section Invariant.
(** [Start h s outs]: after the calls [h] the state can be [s] and the output [outs]. *)
Variable Start : list op -> state -> list (nat * E) -> Prop.

Definition DroppedLate (h : list op) (j : nat) (d : E) : Prop :=
  exists h1 h2 s1 o1, h = h1 ++ Add j d :: h2 /\ Start h1 s1 o1 /\
    (stamp d < 0 \/ exists x, In x o1 /\ stamp d < key x).

Definition with_stamp (t : Z) (l : list E) : list E := filter (fun e => stamp e =? t) l.

Record QInv (h : list op) (outs : list (nat * E)) (lo : Z) (j : nat) (q : queue) : Prop := mkQInv {
  qi_sorted : sorted (evs q);
  qi_low : forall e, In e (evs q) -> lo <= stamp e;
  qi_period : a_period h j (period q);
  qi_next : evs q = [] -> active q = true ->
            exists x p, In (j, x) (adds h) /\ a_period h j p /\ next_ts q = stamp x + p /\
              ((forall p, a_period h j p -> 0 <= p) -> lo <= next_ts q);
  qi_acct : exists D, Permutation (stream j (adds h)) (stream j outs ++ evs q ++ D) /\
              processed q = length (stream j outs) /\ dropped q = length D /\
              (forall d, In d D -> DroppedLate h j d);
  qi_ties : forall t, subseq (with_stamp t (stream j outs ++ evs q)) (with_stamp t (stream j (adds h))) }.

Definition Inv (h : list op) (s : state) (outs : list (nat * E)) : Prop :=
  length (queues s) = n /\
  nondecreasing key outs /\ (forall x, In x outs -> key x <= last_out s) /\
  (last_out s = 0 \/ exists x, In x outs /\ key x = last_out s) /\
  0 <= last_in s < int64_max /\
  ((forall j e, In e (evs (qat j s)) -> stamp e <= last_in s) /\
   (forall x, In x outs -> key x <= last_in s) /\
   (last_in s = 0 \/ exists x, In x (adds h) /\ key x = last_in s)) /\
  (forall j, QInv h outs (last_out s) j (qat j s)).

Lemma init_qat j : qat j init = queue_init.
Proof.
  unfold qat. cbn. destruct (nth_in_or_default j (repeat (queue_init (E:=E)) n) queue_init) as [H|H]; auto.
  now apply repeat_spec in H.
Qed.

Lemma init_inv : Inv [] init [].
Proof.
  split; [apply repeat_length|]. split; [constructor|]. split; [intros x []|]. split; [auto|].
  split; [unfold int64_max; cbn; lia|]. split; [split; [intros j e; rewrite init_qat; intros []|split; [intros x []|auto]]|].
  intros j. rewrite init_qat. constructor; cbn.
  - constructor.
  - intros e [].
  - left; auto.
  - discriminate.
  - exists []. repeat split; auto. intros d [].
  - intros t. constructor.
Qed.

Lemma adds_snoc (h : list op) (o : op) :
  adds (h ++ [o]) = adds h ++ match o with Add i e => [(i, e)] | _ => [] end.
Proof. unfold adds. rewrite flat_map_app. cbn. now rewrite app_nil_r. Qed.

Lemma a_period_snoc (h : list op) o j p : a_period h j p -> a_period (h ++ [o]) j p.
Proof. intros [H|H]; [left; auto|right; apply in_or_app; auto]. Qed.

Lemma dropped_snoc h o j d : DroppedLate h j d -> DroppedLate (h ++ [o]) j d.
Proof.
  intros (h1 & h2 & s1 & o1 & -> & H). exists h1, (h2 ++ [o]), s1, o1. rewrite <- app_assoc. auto.
Qed.

(** A queue untouched by an operation that adds nothing to input [j]. *)
Lemma QInv_snoc h o outs lo j q :
  (forall e, o <> Add j e) -> QInv h outs lo j q -> QInv (h ++ [o]) outs lo j q.
Proof.
  intros Ho [H1 H2 H3 H4 (D & H5 & H6 & H7 & H8) H9].
  assert (Hs : stream j (adds (h ++ [o])) = stream j (adds h)).
  { rewrite adds_snoc, stream_app. destruct o as [i e|i p|]; cbn; try now rewrite app_nil_r.
    destruct (Nat.eqb_spec i j) as [->|]; [exfalso; eapply Ho; eauto|]. now rewrite app_nil_r. }
  constructor; auto.
  - now apply a_period_snoc.
  - intros He Ha. destruct (H4 He Ha) as (x & p & Hx & Hp & Hn & Hle). exists x, p.
    split; [rewrite adds_snoc; apply in_or_app; auto|]. split; [now apply a_period_snoc|]. split; auto.
    intros Hpos. apply Hle. intros p' Hp'. apply Hpos. now apply a_period_snoc.
  - exists D. rewrite Hs. repeat split; auto. intros d Hd. apply dropped_snoc; auto.
  - intros t. now rewrite Hs.
Qed.

Lemma with_stamp_app t a b : with_stamp t (a ++ b) = with_stamp t a ++ with_stamp t b.
Proof. apply filter_app. Qed.

Lemma ins_with_stamp t e l : sorted l ->
  with_stamp t (ins stamp e l) = with_stamp t l ++ with_stamp t [e].
Proof.
  induction l as [|x l IH]; intros H; [reflexivity|]. inversion H as [|? ? Ht Hx]; subst.
  cbn [ins]. destruct (Z.ltb_spec (stamp e) (stamp x)) as [Hlt|Hge].
  - unfold with_stamp. cbn [filter]. destruct (Z.eqb_spec (stamp e) t) as [He|He]; [|now rewrite app_nil_r].
    assert (Hnil : filter (fun e => stamp e =? t) (x :: l) = []).
    { assert (Hall : forall y, In y (x :: l) -> (stamp y =? t) = false).
      { intros y Hy. apply Z.eqb_neq. rewrite Forall_forall in Hx. destruct Hy as [<-|Hy]; [lia|]. apply Hx in Hy. lia. }
      clear -Hall. induction (x :: l) as [|y m IHm]; auto. cbn. rewrite Hall by (cbn; auto). apply IHm. intros; apply Hall; cbn; auto. }
    cbn [filter] in Hnil. rewrite Hnil. reflexivity.
  - unfold with_stamp in *. cbn [filter]. rewrite IH by auto. destruct (stamp x =? t); reflexivity.
Qed.

Lemma stream_single i j (e : E) : stream j [(i, e)] = if Nat.eqb i j then [e] else [].
Proof. rewrite stream_cons. destruct (i =? j)%nat; reflexivity. Qed.

Lemma subseq_skip_tail {A} (a b c : list A) : subseq a b -> subseq a (b ++ c).
Proof. intros H. rewrite <- (app_nil_r a). apply subseq_app; auto. clear; induction c; constructor; auto. Qed.

Lemma add_inv h s outs i e :
  (i < n)%nat -> Start h s outs -> Inv h s outs ->
  exists s', add s i e = Ok s' /\ Inv (h ++ [Add i e]) s' outs.
Proof.
  intros Hi Hrun (HL & HSo & HLo & HLa & Hin & (Hle & Hlx & Hli) & HQ).
  assert (Hn : nth_error (queues s) i = Some (qat i s)) by (apply nth_error_nth'; lia).
  unfold Aligner_Model.add. rewrite Hn.
  destruct (HQ i) as [H1 H2 H3 H4 (D & H5 & H6 & H7 & H8) H9].
  destruct (Z.ltb_spec (stamp e) (last_out s)) as [Hlt|Hge].
  - eexists. split; [reflexivity|].
    assert (Hq : forall j, qat j (mkState (upd i (msg_dropped (qat i s)) (queues s)) (last_in s) (last_out s)) =
                           if Nat.eqb j i then msg_dropped (qat i s) else qat j s).
    { intros j. unfold qat at 1. cbn [queues]. destruct (Nat.eqb_spec j i) as [->|Hj]; [apply nth_upd_eq; lia|].
      rewrite nth_upd_neq by congruence. reflexivity. }
    split; [cbn; now rewrite upd_length|]. split; auto. split; auto. split; auto. split; auto. split.
    { split; [|split; auto].
      - intros j x. rewrite Hq. destruct (Nat.eqb_spec j i) as [->|]; cbn [msg_dropped evs last_in]; apply Hle.
      - destruct Hli as [|(x & Hx & Hx')]; [auto|right; exists x; split; auto]. rewrite adds_snoc. apply in_or_app; auto. }
    intros j. rewrite Hq. cbn [last_out]. destruct (Nat.eqb_spec j i) as [->|Hj].
    2:{ apply QInv_snoc; auto. intros x [= ]; congruence. }
    constructor; cbn [msg_dropped evs active next_ts period processed dropped]; auto.
    + now apply a_period_snoc.
    + intros He Ha. destruct (H4 He Ha) as (x & p & Hx & Hp & Hnx & Hlen). exists x, p.
      split; [rewrite adds_snoc; apply in_or_app; auto|]. split; [now apply a_period_snoc|]. split; auto.
      intros Hpos. apply Hlen. intros p' Hp'. apply Hpos. now apply a_period_snoc.
    + exists (D ++ [e]). rewrite adds_snoc, stream_app, stream_single, Nat.eqb_refl. split; [|split; [|split]]; auto.
      * eapply Permutation_trans; [apply Permutation_app_tail; exact H5|]. perm.
      * rewrite app_length. cbn. lia.
      * intros d Hd. apply in_app_or in Hd as [Hd|[<-|[]]]; [apply dropped_snoc; auto|].
        exists h, [], s, outs. repeat split; auto. destruct HLa as [H0|(x & Hx & Hx')]; [left; lia|].
        right. exists x. split; auto. lia.
    + intros t. rewrite adds_snoc, stream_app, (with_stamp_app t (stream i (adds h))). now apply subseq_skip_tail.
  - eexists. split; [reflexivity|].
    set (s' := mkState _ _ _).
    assert (Hq : forall j, qat j s' = if Nat.eqb j i then set_evs (ins stamp e (evs (qat i s))) (qat i s) else qat j s).
    { intros j. unfold qat at 1. cbn [s' queues]. destruct (Nat.eqb_spec j i) as [->|Hj]; [apply nth_upd_eq; lia|].
      rewrite nth_upd_neq by congruence. reflexivity. }
    assert (Hli' : last_in s <= last_in s' /\ stamp e <= last_in s' /\ last_in s' < int64_max).
    { cbn [s' last_in]. specialize (Hstamp e). destruct (Z.ltb_spec (last_in s) (stamp e)); lia. }
    split; [cbn; now rewrite upd_length|]. split; auto. split; auto. split; auto. split; [lia|]. split.
    { split; [|split].
      - intros j x. rewrite Hq. destruct (Nat.eqb_spec j i) as [->|]; cbn [set_evs evs].
        + intros Hx. eapply Permutation_in in Hx; [|apply Permutation_sym, ins_perm].
          destruct Hx as [<-|Hx]; [lia|]. apply Hle in Hx. lia.
        + intros Hx. apply Hle in Hx. lia.
      - intros x Hx. apply Hlx in Hx. lia.
      - cbn [s' last_in]. rewrite adds_snoc. destruct (last_in s <? stamp e).
        + right. exists (i, e). split; auto. apply in_or_app; cbn; auto.
        + destruct Hli as [|(x & Hx & Hx')]; [auto|right; exists x; split; auto]. apply in_or_app; auto. }
    intros j. rewrite Hq. cbn [s' last_out]. destruct (Nat.eqb_spec j i) as [->|Hj].
    2:{ apply QInv_snoc; auto. intros x [= ]; congruence. }
    constructor; cbn [set_evs evs active next_ts period processed dropped]; auto.
    + now apply ins_sorted.
    + intros x Hx. eapply Permutation_in in Hx; [|apply Permutation_sym, ins_perm]. destruct Hx as [<-|Hx]; auto.
    + now apply a_period_snoc.
    + intros He. exfalso. pose proof (ins_perm e (evs (qat i s))) as HP. rewrite He in HP.
      apply Permutation_length in HP. cbn in HP. lia.
    + exists D. rewrite adds_snoc, stream_app, stream_single, Nat.eqb_refl. split; [|split; [|split]]; auto.
      * eapply Permutation_trans; [apply Permutation_app_tail; exact H5|].
        apply Permutation_trans with (stream i outs ++ (e :: evs (qat i s)) ++ D).
        { change (e :: evs (qat i s)) with ([e] ++ evs (qat i s)). perm. }
        apply Permutation_app_head, Permutation_app_tail, ins_perm.
      * intros d Hd. apply dropped_snoc; auto.
    + intros t. rewrite adds_snoc, stream_app, stream_single, Nat.eqb_refl, !with_stamp_app, ins_with_stamp by auto.
      rewrite app_assoc. apply subseq_app; [rewrite <- with_stamp_app; auto|apply subseq_refl].
Qed.

Lemma set_period_inv h s outs i p :
  (i < n)%nat -> Inv h s outs ->
  exists s', set_period s i p = Ok s' /\ Inv (h ++ [SetPeriod i p]) s' outs.
Proof.
  intros Hi (HL & HSo & HLo & HLa & Hin & (Hle & Hlx & Hli) & HQ).
  assert (Hn : nth_error (queues s) i = Some (qat i s)) by (apply nth_error_nth'; lia).
  unfold set_period. rewrite Hn. eexists. split; [reflexivity|].
  set (s' := mkState _ _ _).
  assert (Hq : forall j, qat j s' = if Nat.eqb j i then set_period_q p (qat i s) else qat j s).
  { intros j. unfold qat at 1. cbn [s' queues]. destruct (Nat.eqb_spec j i) as [->|Hj]; [apply nth_upd_eq; lia|].
    rewrite nth_upd_neq by congruence. reflexivity. }
  split; [cbn; now rewrite upd_length|]. split; auto. split; auto. split; auto. split; auto. split.
  { split; [|split; auto].
    - intros j x. rewrite Hq. destruct (Nat.eqb_spec j i) as [->|]; cbn [set_period_q evs last_in]; apply Hle.
    - rewrite adds_snoc, app_nil_r. auto. }
  intros j. rewrite Hq. cbn [s' last_out]. destruct (Nat.eqb_spec j i) as [->|Hj].
  2:{ apply QInv_snoc; auto. discriminate. }
  pose proof (QInv_snoc h (SetPeriod i p) outs (last_out s) i (qat i s) ltac:(discriminate) (HQ i)) as [H1 H2 H3 H4 H5 H6].
  constructor; cbn [set_period_q evs active next_ts period processed dropped]; auto.
  right. apply in_or_app; cbn; auto.
Qed.

Lemma micro_inv h s s' outs o b :
  Inv h s outs -> micro s s' o b -> Inv h s' (outs ++ o).
Proof.
  intros (HL & HSo & HLo & HLa & Hin & (Hle & Hlx & Hli) & HQ) Hm.
  assert (Hpast : forall j, (n <= j)%nat -> qat j s = queue_init) by (intros j Hj; apply nth_overflow; lia).
  inversion Hm; subst.
  - assert (Hin_e : In e (evs (qat idx s))) by (rewrite H0; cbn; auto).
    assert (Hlo : last_out s <= stamp e) by (apply (qi_low _ _ _ _ _ (HQ idx)); auto).
    split; auto. split; [|split; [|split; [|split; [auto|split]]]].
    + apply StronglySorted_app. split; auto. split; [repeat constructor|].
      intros a b Ha [<-|[]]. apply HLo in Ha. unfold key; cbn. unfold key in Ha. lia.
    + cbn [last_out]. intros x Hx. apply in_app_or in Hx as [Hx|[<-|[]]]; [apply HLo in Hx; lia|unfold key; cbn; lia].
    + right. exists (idx, e). split; [apply in_or_app; cbn; auto|reflexivity].
    + split; [|split; [|exact Hli]].
      * intros j x. unfold qat. cbn [queues last_in]. rewrite H3. destruct (j =? idx)%nat; cbn [pop_first evs]; rewrite touch_evs.
        -- intros Hx. apply (Hle j). destruct (evs (qat j s)); cbn in *; auto.
        -- apply Hle.
      * intros x Hx. apply in_app_or in Hx as [Hx|[<-|[]]]; [apply Hlx; auto|]. apply (Hle idx e Hin_e).
    + intros j. unfold qat. cbn [queues last_out]. rewrite H3.
      destruct (HQ j) as [Q1 Q2 Q3 Q4 (D & Q5 & Q6 & Q7 & Q8) Q9].
      destruct (Nat.eqb_spec j idx) as [->|Hj].
      * destruct (touch_next _ _ _ H0) as [Hnx Hac].
        rewrite H0 in *. inversion Q1 as [|? ? Q1' Q1e]; subst. rewrite Forall_forall in Q1e.
        constructor; cbn [pop_first evs active next_ts period processed dropped]; rewrite ?touch_evs, ?touch_period, ?touch_processed, ?touch_dropped, ?H0; cbn [tl]; auto.
        -- intros _ _. rewrite Hnx. exists e, (period (qat idx s)). split; [|split; [|split]]; auto.
           ++ apply stream_in. eapply Permutation_in; [apply Permutation_sym; exact Q5|]. apply in_or_app; right; cbn; auto.
           ++ intros Hpos. specialize (Hpos _ Q3). lia.
        -- exists D. rewrite stream_app, stream_single, Nat.eqb_refl. split; [|split; [|split]]; auto.
           ++ eapply Permutation_trans; [exact Q5|]. change (e :: t) with ([e] ++ t). perm.
           ++ rewrite app_length. cbn. lia.
        -- intros tt. rewrite stream_app, stream_single, Nat.eqb_refl. rewrite <- app_assoc. apply Q9.
      * assert (Hst : stream j (outs ++ [(idx, e)]) = stream j outs).
        { rewrite stream_app, stream_single. apply not_eq_sym, Nat.eqb_neq in Hj. rewrite Hj. apply app_nil_r. }
        destruct (le_lt_dec n j) as [Hjn|Hjn].
        { rewrite (Hpast j Hjn) in *. rewrite touch_init. constructor; rewrite ?Hst; auto; try discriminate.
          - intros x [].
          - exists D; auto. }
        specialize (H1 j Hjn).
        constructor; rewrite ?touch_evs, ?touch_period, ?touch_processed, ?touch_dropped, ?Hst; auto.
        -- intros x Hx. destruct (evs (qat j s)) as [|y l] eqn:Hy; [destruct Hx|].
           rewrite (ts_nonempty _ _ _ Hy) in H1. inversion Q1 as [|? ? _ Q1e]; subst. rewrite Forall_forall in Q1e.
           destruct Hx as [<-|Hx]; [lia|]. apply Q1e in Hx. lia.
        -- intros He Ha. rewrite touch_empty in * by auto. rewrite ts_empty, Ha in H1 by auto.
           destruct (Q4 He Ha) as (x & p & Hx & Hp & Hn & _). exists x, p. repeat split; auto.
        -- exists D; auto.
  - rewrite app_nil_r. split; auto. split; auto. split; auto. split; auto. split; auto. split.
    { split; [|split; auto].
      intros j x. unfold qat. cbn [queues last_in]. rewrite H4. destruct (j =? idx)%nat; cbn [set_active evs]; rewrite ?touch_evs; apply Hle. }
    intros j. unfold qat. cbn [queues last_out]. rewrite H4.
    destruct (HQ j) as [Q1 Q2 Q3 Q4 Q5 Q6]. destruct (Nat.eqb_spec j idx) as [->|Hj].
    + constructor; cbn [set_active evs active next_ts period processed dropped]; auto. discriminate.
    + constructor; rewrite ?touch_evs, ?touch_period, ?touch_processed, ?touch_dropped; auto.
      intros He. rewrite touch_empty; auto.
  - rewrite app_nil_r. split; auto. split; auto. split; auto. split; auto. split; auto. split.
    { split; [|split; auto].
      intros j x. unfold qat. cbn [queues last_in]. rewrite H4. rewrite touch_evs; apply Hle. }
    intros j. unfold qat. cbn [queues last_out]. rewrite H4.
    destruct (HQ j) as [Q1 Q2 Q3 Q4 Q5 Q6].
    constructor; rewrite ?touch_evs, ?touch_period, ?touch_processed, ?touch_dropped; auto.
    intros He. rewrite touch_empty; auto.
Qed.

Lemma Inv_dispatch_snoc h s outs : Inv h s outs -> Inv (h ++ [Dispatch]) s outs.
Proof.
  intros (HL & HSo & HLo & HLa & Hin & (Hle & Hlx & Hli) & HQ). do 5 (split; [assumption|]).
  split; [rewrite adds_snoc, app_nil_r; auto|].
  intros j. apply QInv_snoc; auto. discriminate.
Qed.

Definition Forwarded (outs : list (nat * E)) : Prop :=
  forall o1 x o2, outs = o1 ++ x :: o2 -> exists h0 s0 s1 b, reach h0 o1 s0 /\ dispatch_first s0 = Ok (s1, [x], b).

Lemma split_app (a b o1 o2 : list (nat * E)) x :
  a ++ b = o1 ++ x :: o2 -> (exists l, a = o1 ++ x :: l) \/ (exists l, o1 = a ++ l /\ b = l ++ x :: o2).
Proof.
  revert o1; induction a as [|y a IH]; intros o1 H; cbn in *.
  - right. exists o1. auto.
  - destruct o1 as [|z o1]; cbn in *; injection H as <- H; [left; eauto|].
    destruct (IH o1 H) as [(l & ->)|(l & -> & ->)]; [left; eauto|right; eauto].
Qed.

Lemma dispatch_inv h s outs :
  (0 < n)%nat -> 0 <= timeout -> Inv h s outs -> reach h outs s -> Forwarded outs ->
  exists s' o, dispatch s = Ok (s', o) /\ Inv (h ++ [Dispatch]) s' (outs ++ o) /\ reach (h ++ [Dispatch]) (outs ++ o) s' /\
    Forwarded (outs ++ o) /\
    ((forall j, evs (qat j s') = []) \/ exists s0, micro s0 s' [] false).
Proof.
  intros Hn Hto HI HR HF0. apply Inv_dispatch_snoc in HI. apply R_dispatch in HR. unfold Aligner_Model.dispatch.
  destruct (inputs_available s) eqn:Hav.
  - destruct (loop_ind (fun s' o => Inv (h ++ [Dispatch]) s' (outs ++ o) /\ reach (h ++ [Dispatch]) (outs ++ o) s' /\ Forwarded (outs ++ o)) Hn Hto) with
      (fuel := fuel_for s) (s := s) (o := @nil (nat * E)) as (s' & o & Hl & (HI' & HR' & HF') & Hst).
    + intros s1 o1 (HI1 & _). destruct HI1 as (HL & _ & _ & _ & Hin & _). split; auto. lia.
    + intros s1 s2 o1 o2 b (HI1 & HR1 & HF1) Hd Hm. rewrite app_assoc. split; [eapply micro_inv; eauto|].
      split; [eapply R_first; eauto|]. intros a x c Hx. apply split_app in Hx as [(l & Hx)|(l & -> & Hx)]; [eauto|].
      revert Hx. inversion Hm; subst; intros Hx; destruct l as [|? [|? l]]; try discriminate. injection Hx as <- <-.
      exists (h ++ [Dispatch]), s1, (mkState qs' (last_in s1) (stamp e)), true. rewrite app_nil_r. split; auto.
    + apply fuel_enough.
    + rewrite app_nil_r. auto.
    + exists s', o. rewrite Hl. cbn [app] in *. auto 8.
  - exists s, []. rewrite app_nil_r. split; auto. split; auto. split; auto. split; auto. left.
    intros j. unfold inputs_available in Hav. destruct (le_lt_dec n j) as [Hj|Hj].
    + unfold qat. rewrite nth_overflow; auto. destruct HI as (HL & _). lia.
    + destruct (evs (qat j s)) eqn:He; auto. exfalso.
      assert (Ht : existsb (fun q : queue => match evs q with [] => false | _ => true end) (queues s) = true); [|congruence].
      apply existsb_exists. exists (qat j s). split; [apply nth_In; destruct HI as (HL & _); lia|]. now rewrite He.
Qed.

End Invariant.

Definition after (h : list op) (s : state) (outs : list (nat * E)) : Prop := run init h = Ok (s, outs).

Lemma run_snoc s h x :
  run s (h ++ [x]) =
  bind (run s h) (fun '(s1, o1) => bind (step s1 x) (fun '(s2, o2) => Ok (s2, o1 ++ o2))).
Proof.
  revert s; induction h as [|y h IH]; intros s; cbn [app Aligner_Model.run].
  - cbn. destruct (step s x) as [[s1 o1]|]; cbn; auto. now rewrite app_nil_r.
  - destruct (step s y) as [[s1 o1]|]; cbn; auto. rewrite IH.
    destruct (run s1 h) as [[s2 o2]|]; cbn; auto. destruct (step s2 x) as [[s3 o3]|]; cbn; auto.
    now rewrite app_assoc.
Qed.

Lemma run_inv h :
  (0 < n)%nat -> 0 <= timeout -> well_indexed n h ->
  exists s outs, run init h = Ok (s, outs) /\ Inv after h s outs /\ reach h outs s /\ Forwarded outs.
Proof.
  intros Hn Hto. induction h as [|o h IH] using rev_ind; intros [HW1 HW2].
  - exists init, []. split; auto. split; [apply init_inv|]. split; [constructor|intros [|? ?] x o2 H; discriminate].
  - destruct IH as (s & outs & Hr & HI & HR & HF).
    { split; intros; [eapply HW1|eapply HW2]; apply in_or_app; eauto. }
    rewrite run_snoc, Hr. cbn [bind].
    destruct o as [i e|i p|]; cbn [Aligner_Model.step].
    + assert (Hi : (i < n)%nat) by (eapply HW1; apply in_or_app; cbn; eauto).
      destruct (add_inv after h s outs i e Hi Hr HI) as (s' & Ha & HI').
      rewrite Ha. cbn. exists s', outs. rewrite app_nil_r. split; auto. split; auto. split; auto. eapply R_add; eauto.
    + assert (Hi : (i < n)%nat) by (eapply HW2; apply in_or_app; cbn; eauto).
      destruct (set_period_inv after h s outs i p Hi HI) as (s' & Ha & HI').
      rewrite Ha. cbn. exists s', outs. rewrite app_nil_r. split; auto. split; auto. split; auto. eapply R_period; eauto.
    + destruct (dispatch_inv after h s outs Hn Hto HI HR HF) as (s' & o & Hd & HI' & HR' & HF' & _).
      rewrite Hd. cbn. exists s', (outs ++ o). auto.
Qed.

Lemma reach_sorted h outs s : (0 < n)%nat -> reach h outs s -> length (queues s) = n /\ forall j, sorted (evs (qat j s)).
Proof.
  intros Hn HR. induction HR as [|h outs s s' i e HR [HL HS] Hi Ha|h outs s s' i p HR [HL HS] Hi Ha|h outs s HR [HL HS]|h outs s s' o b HR [HL HS] Hd].
  - split; [apply repeat_length|]. intros j. rewrite init_qat. constructor.
  - assert (Hnth : nth_error (queues s) i = Some (qat i s)) by (apply nth_error_nth'; lia).
    unfold Aligner_Model.add in Ha. rewrite Hnth in Ha.
    destruct (stamp e <? last_out s); injection Ha as <-; cbn [queues]; (split; [now rewrite upd_length|]); intros j; unfold qat; cbn [queues].
    + destruct (Nat.eq_dec i j) as [->|Hj]; [rewrite nth_upd_eq by lia; apply HS|rewrite nth_upd_neq by auto; apply HS].
    + destruct (Nat.eq_dec i j) as [->|Hj]; [rewrite nth_upd_eq by lia; apply ins_sorted, HS|rewrite nth_upd_neq by auto; apply HS].
  - assert (Hnth : nth_error (queues s) i = Some (qat i s)) by (apply nth_error_nth'; lia).
    unfold set_period in Ha. rewrite Hnth in Ha. injection Ha as <-; cbn [queues]. split; [now rewrite upd_length|].
    intros j; unfold qat; cbn [queues].
    destruct (Nat.eq_dec i j) as [->|Hj]; [rewrite nth_upd_eq by lia; apply HS|rewrite nth_upd_neq by auto; apply HS].
  - auto.
  - destruct (dispatch_first_micro s Hn HL) as (s1 & o1 & b1 & Hd1 & Hm). rewrite Hd in Hd1. injection Hd1 as <- <- <-.
    inversion Hm; subst; cbn [queues]; (split; [auto|]); intros j; unfold qat; cbn [queues].
    + rewrite H3. destruct (j =? idx)%nat; cbn [pop_first evs]; rewrite touch_evs; [|apply HS].
      specialize (HS j). destruct (evs (qat j s)); cbn; auto. now inversion HS.
    + rewrite H4. destruct (j =? idx)%nat; cbn [set_active evs]; rewrite ?touch_evs; apply HS.
    + rewrite H4. rewrite touch_evs; apply HS.
Qed.

(** what a forwarding needs *)
Lemma forward_cond h outs s s' i e b :
  (0 < n)%nat -> reach h outs s -> dispatch_first s = Ok (s', [(i, e)], b) ->
  (i < n)%nat /\ hd_error (evs (qat i s)) = Some e /\
  forall j, (j < n)%nat -> (forall x, In x (evs (qat j s)) -> stamp e <= stamp x) /\
                    (evs (qat j s) = [] -> active (qat j s) = true -> stamp e <= next_ts (qat j s)).
Proof.
  intros Hn HR Hd. destruct (reach_sorted h outs s Hn HR) as [HL HS].
  destruct (dispatch_first_micro s Hn HL) as (s1 & o1 & b1 & Hd1 & Hm). rewrite Hd in Hd1. injection Hd1 as <- <- <-.
  inversion Hm as [idx e0 t qs' A1 A2 A3 A4 A5| |]; subst. rewrite A2. split; auto. split; auto. intros j Hj. specialize (A3 j Hj). split.
  - intros x Hx. specialize (HS j). destruct (evs (qat j s)) as [|y l] eqn:Hy; [destruct Hx|].
    rewrite (ts_nonempty _ _ _ Hy) in A3. inversion HS as [|? ? _ HF]; subst. rewrite Forall_forall in HF.
    destruct Hx as [<-|Hx]; [lia|]. apply HF in Hx. lia.
  - intros He Ha. rewrite ts_empty, Ha in A3 by auto. auto.
Qed.

(** why a dispatch stops *)
Lemma stop_cond Start s0 s' h outs :
  (0 < n)%nat -> Inv Start h s' outs -> micro s0 s' [] false ->
  (forall j, evs (qat j s') = []) \/
  (exists j, (j < n)%nat /\ evs (qat j s') = [] /\ active (qat j s') = true /\
     last_in s' - next_ts (qat j s') < timeout /\
     forall k x, In x (evs (qat k s')) -> next_ts (qat j s') <= stamp x).
Proof.
  intros Hn HI Hm. inversion Hm; subst.
  set (s' := mkState qs' (last_in s0) (last_out s0)) in *.
  assert (Hq : forall j, qat j s' = touch (qat j s0)) by (intros j; apply H4).
  assert (Hpast : forall j, (n <= j)%nat -> evs (qat j s') = []) by (intros j Hj; unfold qat; cbn [s' queues]; rewrite nth_overflow; auto; lia).
  assert (Hts : forall k x, In x (evs (qat k s')) -> ts (qat idx s0) <= stamp x).
  { intros k x Hx. destruct (le_lt_dec n k) as [Hk|Hk]; [rewrite Hpast in Hx; [destruct Hx|auto]|].
    destruct HI as (_ & _ & _ & _ & _ & _ & HQ). pose proof (qi_sorted _ _ _ _ _ _ (HQ k)) as HS.
    specialize (H1 k Hk). rewrite Hq, touch_evs in *. destruct (evs (qat k s0)) as [|y l] eqn:Hy; [destruct Hx|].
    rewrite (ts_nonempty _ _ _ Hy) in H1. inversion HS as [|? ? _ HF]; subst. rewrite Forall_forall in HF.
    destruct Hx as [<-|Hx]; [lia|]. apply HF in Hx. lia. }
  rewrite ts_empty in * by auto. destruct (active (qat idx s0)) eqn:Ha.
  - right. exists idx. rewrite Hq, touch_empty by auto. repeat split; auto.
  - left. intros j. destruct (evs (qat j s')) as [|x l] eqn:Hx; auto. exfalso.
    specialize (Hts j x). rewrite Hx in Hts. specialize (Hts (or_introl eq_refl)). specialize (Hstamp x). lia.
Qed.

(** ** predictions *)
Lemma period_from_app p0 i (h1 h2 : list op) :
  period_from p0 i (h1 ++ h2) = period_from (period_from p0 i h1) i h2.
Proof. revert p0; induction h1 as [|[j e|j p|] h1 IH]; intros p0; cbn; auto. Qed.

(** Input [j] last forwarded [x], under period [period_in_force j h1]. *)
Definition LastForwarded (h : list op) (outs : list (nat * E)) (j : nat) (x : E) (p : Z) : Prop :=
  exists h1 h2 o1 o2 s1 s2 b,
    h = h1 ++ h2 /\ outs = o1 ++ (j, x) :: o2 /\ stream j o2 = [] /\ p = period_in_force j h1 /\
    reach h1 o1 s1 /\ dispatch_first s1 = Ok (s2, [(j, x)], b).

Definition PInv (h : list op) (outs : list (nat * E)) (li : Z) (j : nat) (q : queue) : Prop :=
  period q = period_in_force j h /\
  (evs q = [] -> (stream j outs = [] /\ active q = false) \/
     exists x p, LastForwarded h outs j x p /\ next_ts q = stamp x + p /\
       (active q = false -> timeout <= li - next_ts q)).

Lemma LastForwarded_snoc h o outs j x p :
  LastForwarded h outs j x p -> LastForwarded (h ++ [o]) outs j x p.
Proof.
  intros (h1 & h2 & o1 & o2 & s1 & s2 & b & -> & H). exists h1, (h2 ++ [o]), o1, o2, s1, s2, b.
  rewrite <- app_assoc. tauto.
Qed.

Lemma PInv_snoc h o outs li li' j q :
  (forall i p, o = SetPeriod i p -> i <> j) -> li <= li' -> PInv h outs li j q -> PInv (h ++ [o]) outs li' j q.
Proof.
  intros Ho Hli [HP HQ]. split.
  - unfold period_in_force in *. rewrite period_from_app, <- HP. destruct o as [i e|i p|]; cbn; auto.
    specialize (Ho i p eq_refl). destruct (Nat.eqb_spec i j); congruence.
  - intros He. destruct (HQ He) as [H|(x & p & H1 & H2 & H3)]; auto. right. exists x, p.
    split; [now apply LastForwarded_snoc|]. split; auto. intros Ha. specialize (H3 Ha). lia.
Qed.

Lemma touch_active q : evs q <> [] -> active (touch q) = true.
Proof. destruct (evs q) as [|e t] eqn:H; [congruence|]. intros _. now destruct (touch_next q e t H). Qed.

Lemma PInv_touch h outs li j q : PInv h outs li j q -> PInv h outs li j (touch q).
Proof.
  intros [HP HQ]. split; [now rewrite touch_period|]. rewrite touch_evs. intros He. rewrite (touch_empty q He). auto.
Qed.

Lemma stream_other (i j : nat) (e : E) outs : i <> j -> stream j (outs ++ [(i, e)]) = stream j outs.
Proof. intros H. rewrite stream_app, stream_single. destruct (Nat.eqb_spec i j); [congruence|]. apply app_nil_r. Qed.

Lemma reach_predicts h outs s :
  (0 < n)%nat -> reach h outs s -> forall j, (j < n)%nat -> PInv h outs (last_in s) j (qat j s).
Proof.
  intros Hn HR. induction HR as [|h outs s s' i e HR IH Hi Ha|h outs s s' i p HR IH Hi Ha|h outs s HR IH|h outs s s' o b HR IH Hd]; intros j Hj.
  - rewrite init_qat. split; [reflexivity|]. intros _. left; auto.
  - destruct (reach_sorted h outs s Hn HR) as [HL _].
    assert (Hnth : nth_error (queues s) i = Some (qat i s)) by (apply nth_error_nth'; lia).
    unfold Aligner_Model.add in Ha. rewrite Hnth in Ha. specialize (IH j Hj).
    destruct (stamp e <? last_out s); injection Ha as <-; unfold qat; cbn [queues last_in].
    + apply PInv_snoc with (li := last_in s); [discriminate|lia|].
      destruct (Nat.eq_dec i j) as [->|Hij]; [rewrite nth_upd_eq by lia; exact IH|rewrite nth_upd_neq by auto; exact IH].
    + apply PInv_snoc with (li := last_in s); [discriminate|destruct (Z.ltb_spec (last_in s) (stamp e)); lia|].
      destruct (Nat.eq_dec i j) as [->|Hij]; [rewrite nth_upd_eq by lia|rewrite nth_upd_neq by auto; exact IH].
      split; [apply IH|]. cbn. intros He. exfalso. pose proof (ins_perm e (evs (qat j s))) as Hp. unfold qat in Hp. rewrite He in Hp.
      apply Permutation_sym in Hp. now apply Permutation_nil_cons in Hp.
  - destruct (reach_sorted h outs s Hn HR) as [HL _].
    assert (Hnth : nth_error (queues s) i = Some (qat i s)) by (apply nth_error_nth'; lia).
    unfold set_period in Ha. rewrite Hnth in Ha. specialize (IH j Hj). injection Ha as <-; unfold qat; cbn [queues last_in].
    destruct (Nat.eq_dec i j) as [->|Hij].
    + rewrite nth_upd_eq by lia. split.
      * unfold period_in_force. rewrite period_from_app. cbn. now rewrite Nat.eqb_refl.
      * cbn. intros He. destruct (proj2 IH He) as [H|(x & q & H1 & H2 & H3)]; auto. right. exists x, q.
        split; [now apply LastForwarded_snoc|]. auto.
    + rewrite nth_upd_neq by auto. apply PInv_snoc with (li := last_in s); [|lia|exact IH].
      intros ? ? [= <- <-]. auto.
  - apply PInv_snoc with (li := last_in s); [discriminate|lia|auto].
  - destruct (reach_sorted h outs s Hn HR) as [HL _].
    destruct (dispatch_first_micro s Hn HL) as (s1 & o1 & b1 & Hd1 & Hm). rewrite Hd in Hd1. injection Hd1 as <- <- <-.
    pose proof (IH j Hj) as IHj.
    inversion Hm as [idx e t qs' A1 A2 A3 A4 A5|idx qs' A1 A2 A3 A4 A5 A6|idx qs' A1 A2 A3 A4 A5 A6]; subst; unfold qat; cbn [queues last_in].
    + rewrite A5. destruct (Nat.eqb_spec j idx) as [->|Hji].
      * destruct (touch_next _ _ _ A2) as [B1 B2]. split; [cbn; rewrite touch_period; apply IHj|].
        intros _. right. exists e, (period (qat idx s)). cbn [pop_first next_ts active]. rewrite B1, B2.
        split; [|split; [reflexivity|discriminate]].
        exists h, [], outs, [], s, (mkState qs' (last_in s) (stamp e)), true. rewrite app_nil_r.
        split; auto. split; auto. split; auto. split; [apply IHj|]. split; auto.
      * apply PInv_touch. destruct IHj as [HP HQ]. split; auto. intros He. rewrite stream_other by auto.
        destruct (HQ He) as [H|(x & p & (h1 & h2 & o1 & o2 & s1 & s2 & b & B1 & B2 & B3 & B4) & H2 & H3)]; auto.
        right. exists x, p. split; auto. exists h1, h2, o1, (o2 ++ [(idx, e)]), s1, s2, b. subst outs.
        split; auto. split; [now rewrite <- app_assoc|]. split; [now rewrite stream_other by auto|auto].
    + rewrite app_nil_r, A6. destruct (Nat.eqb_spec j idx) as [->|Hji]; [|now apply PInv_touch].
      destruct IHj as [HP HQ]. split; auto. cbn [set_active evs active next_ts]. intros He.
      destruct (HQ He) as [[H _]|(x & p & H1 & H2 & H3)]; auto. right. exists x, p. split; auto. split; auto.
      intros _. rewrite ts_empty in A4 by auto. destruct (active (qat idx s)); auto.
    + rewrite app_nil_r, A6. now apply PInv_touch.
Qed.
End Proofs.
