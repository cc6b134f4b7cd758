From Coq Require Import List Arith ZArith Lia Bool Sorted Permutation.
From Verif Require Import Base RclTime Trace Cache_Model Cache_Spec.
Import ListNotations.

Section Proofs.
Context {E : Type} (stamp : E -> time).
Notation key := (key stamp).
Notation sorted := (nondecreasing key).

Definition all_clk (k : clock) (l : list E) := forall e, In e l -> clk (stamp e) = k.

(** ** pop_while *)
Lemma pop_while_spec c (l : list E) : 0 < c -> pop_while c l = Ok (skipn (S (length l) - c) l).
Proof.
  intros Hc. induction l as [|x t IH].
  - cbn. destruct c; [lia|]. cbn. destruct (0 - c); reflexivity.
  - cbn [pop_while]. destruct (Nat.leb_spec c (length (x :: t))) as [H|H]; cbn [length] in *.
    + rewrite IH. replace (S (S (length t)) - c) with (S (S (length t) - c)) by lia. reflexivity.
    + replace (S (S (length t)) - c) with 0 by lia. reflexivity.
Qed.

(** ** insertion *)
Lemma sorted_filter_split t l :
  sorted l -> l = filter (fun x => Z.leb (key x) t) l ++ filter (fun x => negb (Z.leb (key x) t)) l.
Proof.
  induction 1 as [|x l HS IH HF]; cbn; auto.
  destruct (Z.leb_spec (key x) t) as [H|H]; cbn.
  - now rewrite <- IH.
  - assert (H1 : filter (fun x => Z.leb (key x) t) l = []).
    { clear IH HS. induction l as [|y l IH]; cbn; auto. inversion HF; subst.
      destruct (Z.leb_spec (key y) t); [lia|auto]. }
    rewrite H1 in *; cbn in *. now rewrite <- IH.
Qed.

Definition ins (e : E) (l : list E) : list E :=
  filter (fun x => Z.leb (key x) (key e)) l ++ e :: filter (fun x => negb (Z.leb (key x) (key e))) l.

Lemma insert_back_rev k e l :
  all_clk k l -> clk (stamp e) = k -> sorted l ->
  insert_back stamp e (rev l) = Ok (rev (ins e l)).
Proof.
  intros HA He HS. unfold ins. revert HA HS.
  induction l as [|x l IH] using rev_ind; intros HA HS; cbn; auto.
  rewrite rev_app_distr; cbn.
  assert (Hx : clk (stamp x) = k) by (apply HA, in_or_app; cbn; auto).
  unfold time_gt, time_lt. rewrite He, Hx.
  destruct (clock_eqb_spec k k) as [_|]; [|congruence]. cbn.
  apply StronglySorted_app in HS as (HS & _ & HX).
  rewrite !filter_app; cbn. fold (key x) (key e).
  destruct (Z.ltb_spec (key e) (key x)) as [H|H].
  - destruct (Z.leb_spec (key x) (key e)); [lia|]. cbn.
    rewrite IH; auto. 2:{ intros y Hy; apply HA, in_or_app; auto. }
    cbn. f_equal. rewrite app_nil_r. rewrite !rev_app_distr; cbn.
    rewrite !rev_app_distr; cbn. now rewrite <- !app_assoc.
  - destruct (Z.leb_spec (key x) (key e)) as [H'|]; [|lia]. cbn.
    assert (H1 : filter (fun x => negb (Z.leb (key x) (key e))) l = []).
    { clear -HX H'. induction l as [|y l IH]; cbn; auto.
      assert (key y <= key x)%Z by (apply HX; cbn; auto).
      destruct (Z.leb_spec (key y) (key e)); [|lia]. cbn. apply IH.
      intros; apply HX; cbn in *; auto. }
    assert (H2 : filter (fun x => Z.leb (key x) (key e)) l = l).
    { clear -HX H'. induction l as [|y l IH]; cbn; auto.
      assert (key y <= key x)%Z by (apply HX; cbn; auto).
      destruct (Z.leb_spec (key y) (key e)); [|lia]. f_equal. apply IH.
      intros; apply HX; cbn in *; auto. }
    rewrite H1, H2; cbn. rewrite !rev_app_distr; cbn. rewrite ?rev_app_distr; reflexivity.
Qed.

Lemma ins_in e l y : In y (ins e l) <-> y = e \/ In y l.
Proof.
  unfold ins. rewrite in_app_iff; cbn. rewrite !filter_In.
  destruct (Z.leb (key y) (key e)); cbn; intuition.
Qed.

Lemma filter_length2 {A} (p : A -> bool) l :
  length (filter p l) + length (filter (fun x => negb (p x)) l) = length l.
Proof. induction l as [|x l IH]; cbn; auto. destruct (p x); cbn; lia. Qed.

Lemma filter_len_le {A} (p : A -> bool) l : length (filter p l) <= length l.
Proof. induction l as [|x l IH]; cbn; auto. destruct (p x); cbn; lia. Qed.

Lemma ins_length e l : length (ins e l) = S (length l).
Proof.
  unfold ins. rewrite app_length; cbn.
  pose proof (filter_length2 (fun x => Z.leb (key x) (key e)) l). lia.
Qed.

Lemma filter_sorted p l : sorted l -> sorted (filter p l).
Proof.
  induction 1; cbn; [constructor|]. destruct (p a); auto. constructor; auto.
  rewrite Forall_forall in *. intros x Hx. apply filter_In in Hx as [Hx _]; auto.
Qed.

Lemma ins_sorted e l : sorted l -> sorted (ins e l).
Proof.
  intros HS. unfold ins. apply StronglySorted_app. split; [now apply filter_sorted|]. split.
  - constructor; [now apply filter_sorted|]. apply Forall_forall. intros x Hx.
    apply filter_In in Hx as [_ Hx]. apply negb_true_iff, Z.leb_gt in Hx. lia.
  - intros x y Hx [<-|Hy]; apply filter_In in Hx as [_ Hx]; apply Z.leb_le in Hx; auto.
    apply filter_In in Hy as [_ Hy]. apply negb_true_iff, Z.leb_gt in Hy. lia.
Qed.

Lemma filter_filter {A} (p q : A -> bool) l : filter p (filter q l) = filter (fun x => q x && p x) l.
Proof. induction l as [|x l IH]; cbn; auto. destruct (q x); cbn; [|auto]. destruct (p x); cbn; now rewrite IH. Qed.

Lemma ins_with_stamp e l t :
  sorted l ->
  with_stamp stamp t (ins e l) =
  if Z.eqb (key e) t then with_stamp stamp t l ++ [e] else with_stamp stamp t l.
Proof.
  intros HS. unfold with_stamp, ins. rewrite filter_app; cbn. rewrite !filter_filter.
  fold (key e). destruct (Z.eqb_spec (key e) t) as [H|H].
  - assert (H1 : filter (fun x => negb (Z.leb (key x) (key e)) && Z.eqb (key x) t) l = []).
    { clear HS. induction l as [|x l IH]; cbn; auto.
      destruct (Z.leb_spec (key x) (key e)); cbn; auto. destruct (Z.eqb_spec (key x) t); auto; lia. }
    rewrite H1. f_equal. apply filter_ext. intros x.
    destruct (Z.leb_spec (key x) (key e)); cbn; auto. destruct (Z.eqb_spec (key x) t); auto; lia.
  - clear HS. destruct (Z.ltb_spec t (key e)).
    + assert (H1 : filter (fun x => negb (Z.leb (key x) (key e)) && Z.eqb (key x) t) l = []).
      { induction l as [|x l IH]; cbn; auto.
        destruct (Z.leb_spec (key x) (key e)); cbn; auto. destruct (Z.eqb_spec (key x) t); auto; lia. }
      rewrite H1, app_nil_r. apply filter_ext. intros x.
      destruct (Z.leb_spec (key x) (key e)); cbn; auto. destruct (Z.eqb_spec (key x) t); auto; lia.
    + assert (H1 : filter (fun x => Z.leb (key x) (key e) && Z.eqb (key x) t) l = []).
      { induction l as [|x l IH]; cbn; auto.
        destruct (Z.leb_spec (key x) (key e)); cbn; auto. destruct (Z.eqb_spec (key x) t); auto; lia. }
      rewrite H1; cbn. apply filter_ext. intros x.
      destruct (Z.leb_spec (key x) (key e)); cbn; auto. destruct (Z.eqb_spec (key x) t); auto; lia.
Qed.

(** ** the add step, one clock *)
Lemma skipn_in {A} n (l : list A) x : In x (skipn n l) -> In x l.
Proof. revert l; induction n; intros [|y l]; cbn; auto. Qed.

Lemma skipn_sorted n l : sorted l -> sorted (skipn n l).
Proof.
  intros HS. rewrite <- (firstn_skipn n l) in HS. now apply StronglySorted_app in HS as (_ & H & _).
Qed.

Lemma add_spec k c s e :
  cap s = Some c -> 0 < c -> all_clk k (contents s) -> clk (stamp e) = k -> sorted (contents s) ->
  add stamp e s =
  (mkState (Some c) (ins e (skipn (S (length (contents s)) - c) (contents s))), Forwarded e).
Proof.
  intros Hcap Hc HA He HS. unfold add. rewrite Hcap, pop_while_spec by auto.
  rewrite (insert_back_rev k); auto.
  - now rewrite rev_involutive.
  - intros y Hy. apply skipn_in in Hy; auto.
  - now apply skipn_sorted.
Qed.

(** ** any clocks: the invariant of every reachable state *)
Definition Inv (s : state E) : Prop :=
  (exists k, all_clk k (contents s)) /\ sorted (contents s) /\
  match cap s with Some c => 0 < c | None => contents s = [] end.

Lemma insert_back_mixed e rl k :
  all_clk k rl -> clk (stamp e) <> k -> rl <> [] -> insert_back stamp e rl = Err Thrown.
Proof.
  intros HA He Hne. destruct rl as [|x t]; [congruence|]. cbn.
  unfold time_gt, time_lt. rewrite (HA x) by (cbn; auto).
  destruct (clock_eqb_spec (clk (stamp e)) k) as [Hk|_]; [congruence|]. reflexivity.
Qed.

Lemma clock_dec (a b : clock) : {a = b} + {a <> b}.
Proof. decide equality. Qed.

Lemma add_mixed c s e k :
  cap s = Some c -> 0 < c -> all_clk k (contents s) -> clk (stamp e) <> k ->
  add stamp e s =
  (if Nat.eqb (length (skipn (S (length (contents s)) - c) (contents s))) 0
   then (mkState (Some c) [e], Forwarded e)
   else (mkState (Some c) (skipn (S (length (contents s)) - c) (contents s)), Failed Thrown)).
Proof.
  intros Hcap Hc HA He. unfold add. rewrite Hcap, pop_while_spec by auto.
  destruct (skipn (S (length (contents s)) - c) (contents s)) as [|x t] eqn:Hsk; [reflexivity|].
  rewrite (insert_back_mixed e _ k); auto.
  - intros y Hy. apply HA. rewrite <- in_rev in Hy. rewrite <- Hsk in Hy. now apply skipn_in in Hy.
  - cbn. destruct (rev t); cbn; congruence.
Qed.

Lemma step_inv s o : Inv s -> Inv (fst (step stamp s o)).
Proof.
  intros ((k & HA) & HS & HC). destruct o; cbn; try solve [split; [eauto|split; auto]].
  - destruct n as [|n]; (split; [exists k; exact HA|split; [exact HS|]]); [exact HC|cbn; lia].
  - destruct (cap s) as [c|] eqn:Hcap.
    2:{ unfold add. rewrite Hcap. cbn. split; [eauto|]. split; auto. now rewrite Hcap. }
    destruct (clock_dec (clk (stamp e)) k) as [He|He].
    + rewrite (add_spec k c); auto. cbn. split; [|split; auto].
      * exists k. intros y Hy. apply ins_in in Hy as [->|Hy]; auto. apply skipn_in in Hy; auto.
      * apply ins_sorted, skipn_sorted; auto.
    + rewrite (add_mixed c s e k); auto.
      destruct (Nat.eqb _ 0); cbn; (split; [|split; auto]).
      * exists (clk (stamp e)). intros y [<-|[]]; auto.
      * repeat constructor.
      * exists k. intros y Hy. apply skipn_in in Hy; auto.
      * now apply skipn_sorted.
Qed.

Lemma ctor_inv n : Inv (@ctor E n).
Proof.
  unfold ctor, Inv. destruct n; cbn; (split; [exists RosClock; intros e []|split]); auto; try apply SSorted_nil; lia.
Qed.

Lemma run_app s h1 h2 :
  run stamp s (h1 ++ h2) =
  (fst (run stamp (fst (run stamp s h1)) h2), snd (run stamp s h1) ++ snd (run stamp (fst (run stamp s h1)) h2)).
Proof.
  revert s; induction h1 as [|o h1 IH]; intros s; cbn.
  - now destruct (run stamp s h2).
  - destruct (step stamp s o) as [s1 x]. rewrite IH.
    destruct (run stamp s1 h1) as [s2 xs]; cbn. reflexivity.
Qed.

Lemma run_inv s h : Inv s -> Inv (fst (run stamp s h)).
Proof.
  revert s; induction h as [|o h IH]; intros s HI; cbn; auto.
  pose proof (step_inv s o HI) as H1. destruct (step stamp s o) as [s1 x]; cbn in *.
  specialize (IH s1 H1). now destruct (run stamp s1 h).
Qed.

Lemma final_inv n h : Inv (final stamp n h).
Proof. apply run_inv, ctor_inv. Qed.

Lemma final_snoc n h o :
  final stamp n (h ++ [o]) = fst (step stamp (final stamp n h) o).
Proof.
  unfold final. rewrite run_app; cbn. now destruct (step stamp (fst (run stamp (ctor n) h)) o).
Qed.

(** ** capacity *)
Lemma capacity_app c (h1 h2 : list (op E)) : capacity c (h1 ++ h2) = capacity (capacity c h1) h2.
Proof. revert c; induction h1 as [|[[|n]| | | | | | | ] h1 IH]; intros c; cbn; auto. Qed.

Definition cap0 (n : nat) : option nat := match n with O => None | S _ => Some n end.

Lemma final_cap n h : cap (final stamp n h) = capacity (cap0 n) h.
Proof.
  induction h as [|o h IH] using rev_ind.
  - unfold final; cbn. destruct n; reflexivity.
  - rewrite final_snoc, capacity_app, <- IH.
    destruct o as [[|m]|e| | | | | | ]; cbn; auto.
    unfold add. destruct (cap (final stamp n h)) as [c|] eqn:Hc; [|exact Hc].
    destruct (pop_while c _); [|exact Hc].
    destruct (insert_back stamp e (rev a)); cbn; auto.
Qed.

Lemma add_bound s e s' c :
  Inv s -> cap s = Some c -> fst (add stamp e s) = s' -> length (contents s') <= c.
Proof.
  intros ((k & HA) & HS & HC) Hcap <-. rewrite Hcap in HC.
  destruct (clock_dec (clk (stamp e)) k) as [He|He].
  - rewrite (add_spec k c); auto. cbn [fst contents]. rewrite ins_length, skipn_length. lia.
  - rewrite (add_mixed c s e k); auto.
    destruct (Nat.eqb _ 0); cbn [fst contents length]; [lia|]. rewrite skipn_length. lia.
Qed.

(** ** one-clock histories *)
Lemma added_app (h1 h2 : list (op E)) : added (h1 ++ h2) = added h1 ++ added h2.
Proof. unfold added. now rewrite flat_map_app. Qed.

Lemma final_one_clock k n h : one_clock stamp k h -> all_clk k (contents (final stamp n h)).
Proof.
  induction h as [|o h IH] using rev_ind; intros HO.
  - unfold final; cbn. destruct n; intros e [].
  - assert (HO' : one_clock stamp k h).
    { intros e He. apply HO. rewrite added_app. apply in_or_app; auto. }
    specialize (IH HO'). rewrite final_snoc.
    pose proof (final_inv n h) as ((k' & HA) & HS & HC).
    destruct o; cbn; auto.
    + destruct n0; auto.
    + assert (He : clk (stamp e) = k).
      { apply HO. rewrite added_app. apply in_or_app; cbn; auto. }
      destruct (cap (final stamp n h)) as [c|] eqn:Hcap.
      2:{ unfold add. rewrite Hcap. cbn. auto. }
      rewrite (add_spec k c); auto; cbn. intros y Hy.
      apply ins_in in Hy as [->|Hy]; auto. apply skipn_in in Hy; auto.
Qed.

Lemma with_stamp_app t (a b : list E) : with_stamp stamp t (a ++ b) = with_stamp stamp t a ++ with_stamp stamp t b.
Proof. apply filter_app. Qed.

(** every stamp: the cached messages with that stamp are the last ones that arrived with it *)
Lemma final_suffix k n h t :
  0 < n -> one_clock stamp k h ->
  is_suffix (with_stamp stamp t (contents (final stamp n h))) (with_stamp stamp t (added h)).
Proof.
  intros Hn. induction h as [|o h IH] using rev_ind; intros HO.
  - unfold final; cbn. destruct n; exists []; reflexivity.
  - assert (HO' : one_clock stamp k h).
    { intros e He. apply HO. rewrite added_app. apply in_or_app; auto. }
    specialize (IH HO'). pose proof (final_one_clock k n h HO') as HA'.
    rewrite final_snoc, added_app, with_stamp_app.
    pose proof (final_inv n h) as (_ & HS & HC).
    destruct o; cbn [step fst]; try (rewrite app_nil_r; assumption).
    + rewrite app_nil_r. destruct n0; assumption.
    + assert (He : clk (stamp e) = k).
      { apply HO. rewrite added_app. apply in_or_app; cbn; auto. }
      destruct (cap (final stamp n h)) as [c|] eqn:Hcap.
      2:{ rewrite final_cap in Hcap. destruct n; [lia|]. cbn in Hcap.
          exfalso. clear -Hcap. remember (Some (S n)) as c. assert (c <> None) by congruence. clear Heqc.
          revert c H Hcap. induction h as [|[[|m]| | | | | | | ] h IH]; intros; cbn in *; eauto.
          eapply IH; [|eauto]. congruence. }
      rewrite (add_spec k c); auto; cbn [fst contents].
      rewrite ins_with_stamp by now apply skipn_sorted.
      destruct IH as [p Hp].
      set (l := contents (final stamp n h)) in *. set (d := S (length l) - c) in *.
      assert (Hl : with_stamp stamp t l = with_stamp stamp t (firstn d l) ++ with_stamp stamp t (skipn d l)).
      { rewrite <- with_stamp_app, firstn_skipn. reflexivity. }
      cbn. fold (Cache_Spec.key stamp e).
      exists (p ++ with_stamp stamp t (firstn d l)). rewrite Hp, Hl.
      destruct (Z.eqb (Cache_Spec.key stamp e) t); cbn; now rewrite ?app_nil_r, <- ?app_assoc.
Qed.

Lemma capacity_some n (h : list (op E)) : 0 < n -> exists c, capacity (Some n) h = Some c /\ 0 < c.
Proof.
  revert n; induction h as [|[[|m]| | | | | | | ] h IH]; intros n Hn; cbn; eauto.
  apply IH. lia.
Qed.

(** ** forwarding *)
Lemma forwarded_app (a b : list (out E)) : forwarded (a ++ b) = forwarded a ++ forwarded b.
Proof. unfold forwarded. now rewrite flat_map_app. Qed.

Lemma outputs_snoc n h o :
  outputs stamp n (h ++ [o]) = outputs stamp n h ++ [snd (step stamp (final stamp n h) o)].
Proof.
  unfold outputs, final. rewrite run_app; cbn. now destruct (step stamp (fst (run stamp (ctor n) h)) o).
Qed.

Lemma query_not_forwarded {A} (f : A -> out E) r :
  (forall a, forwarded [f a] = []) -> forwarded [query f r] = [].
Proof. intros H. destruct r; cbn; auto. apply H. Qed.

Lemma forwarded_all k n h :
  0 < n -> one_clock stamp k h -> forwarded (outputs stamp n h) = added h.
Proof.
  intros Hn. induction h as [|o h IH] using rev_ind; intros HO; [reflexivity|].
  assert (HO' : one_clock stamp k h).
  { intros e He. apply HO. rewrite added_app. apply in_or_app; auto. }
  rewrite outputs_snoc, forwarded_app, added_app, IH by auto. f_equal.
  destruct o; cbn [step snd]; try (apply query_not_forwarded; reflexivity); try reflexivity.
  assert (He : clk (stamp e) = k).
  { apply HO. rewrite added_app. apply in_or_app; cbn; auto. }
  pose proof (final_inv n h) as (_ & HS & HC).
  pose proof (final_cap n h) as Hc. destruct n; [lia|]. cbn in Hc.
  destruct (capacity_some (S n) h Hn) as (c & Hc' & Hpos). rewrite Hc' in Hc.
  rewrite (add_spec k c); auto. now apply final_one_clock.
Qed.

(** ** queries on sorted one-clock contents *)
Fixpoint takewhile (q : E -> bool) (l : list E) : list E :=
  match l with [] => [] | x :: t => if q x then x :: takewhile q t else [] end.

Lemma takewhile_length_le q l : length (takewhile q l) <= length l.
Proof. induction l as [|x t IH]; cbn; auto. destruct (q x); cbn; lia. Qed.

Lemma nth_error_skipn {A} (l : list A) i e t : skipn i l = e :: t -> nth_error l i = Some e.
Proof.
  revert l; induction i; intros [|x l]; cbn; intros H; try congruence. eauto.
Qed.

Lemma skipn_S {A} (l : list A) i e t : skipn i l = e :: t -> skipn (S i) l = t.
Proof.
  revert l; induction i; intros [|x l]; cbn; intros H; try congruence.
  now apply IHi.
Qed.

Lemma scan_up_spec p q l k i :
  (forall e, In e l -> p e = Ok (q e)) -> i + k <= length l ->
  scan_up p l k i = Ok (i + length (takewhile q (firstn k (skipn i l)))).
Proof.
  intros Hp. revert i; induction k as [|k IH]; intros i Hk; cbn [scan_up firstn takewhile length].
  - rewrite Nat.add_0_r. reflexivity.
  - destruct (skipn i l) as [|e t] eqn:Hsk.
    { apply (f_equal (@length E)) in Hsk. rewrite skipn_length in Hsk. cbn in Hsk. lia. }
    rewrite (nth_error_skipn _ _ _ _ Hsk). rewrite Hp.
    2:{ apply (skipn_in i). rewrite Hsk. cbn; auto. }
    cbn [bind takewhile firstn]. destruct (q e).
    + rewrite IH by lia. rewrite (skipn_S _ _ _ _ Hsk). cbn [length]. f_equal. lia.
    + cbn. f_equal; lia.
Qed.

Lemma takewhile_mono_filter q l :
  StronglySorted (fun a b => q b = true -> q a = true) l -> takewhile q l = filter q l.
Proof.
  induction 1 as [|x l HS IH HF]; cbn; auto. destruct (q x) eqn:Hq; [now rewrite IH|].
  clear IH HS. induction l as [|y l IH]; cbn; auto. inversion HF; subst.
  destruct (q y) eqn:Hy; [discriminate (H1 eq_refl)|auto].
Qed.

Lemma StronglySorted_impl {A} (R R' : A -> A -> Prop) l :
  (forall a b, R a b -> R' a b) -> StronglySorted R l -> StronglySorted R' l.
Proof.
  intros H. induction 1; constructor; auto. rewrite Forall_forall in *; auto.
Qed.

Lemma firstn_takewhile q l : firstn (length (takewhile q l)) l = takewhile q l.
Proof. induction l as [|x t IH]; cbn; auto. destruct (q x); cbn; [now rewrite IH|auto]. Qed.

Lemma skipn_filter_prefix q (l : list E) :
  StronglySorted (fun a b => q b = true -> q a = true) l ->
  skipn (length (filter q l)) l = filter (fun x => negb (q x)) l.
Proof.
  induction 1 as [|x l HS IH HF]; cbn; auto. destruct (q x) eqn:Hq; cbn; auto.
  assert (H : filter q l = []).
  { clear IH HS. induction l as [|y l IH]; cbn; auto. inversion HF; subst.
    destruct (q y) eqn:Hy; [discriminate (H1 eq_refl)|auto]. }
  rewrite H; cbn. f_equal. clear IH HS HF. induction l as [|y l IH]; cbn in *; auto.
  destruct (q y) eqn:Hy; cbn; [congruence|]. f_equal. auto.
Qed.

Definition uses_clk (k : clock) (t : time) := clk t = k.

Lemma time_lt_ok k l t : all_clk k l -> clk t = k ->
  forall e, In e l -> time_lt (stamp e) t = Ok (Z.ltb (key e) (ns t)).
Proof.
  intros HA Ht e He. unfold time_lt. rewrite HA, Ht by auto.
  now destruct (clock_eqb_spec k k).
Qed.
Lemma time_le_ok k l t : all_clk k l -> clk t = k ->
  forall e, In e l -> time_le (stamp e) t = Ok (Z.leb (key e) (ns t)).
Proof.
  intros HA Ht e He. unfold time_le. rewrite HA, Ht by auto.
  now destruct (clock_eqb_spec k k).
Qed.
Lemma time_gt_ok k l t : all_clk k l -> clk t = k ->
  forall e, In e l -> time_gt (stamp e) t = Ok (Z.ltb (ns t) (key e)).
Proof.
  intros HA Ht e He. unfold time_gt, time_lt. rewrite HA, Ht by auto.
  now destruct (clock_eqb_spec k k).
Qed.

Lemma getInterval_spec k a b l :
  all_clk k l -> clk a = k -> clk b = k -> sorted l ->
  getInterval stamp a b l = Ok (filter (fun e => Z.leb (ns a) (key e) && Z.leb (key e) (ns b)) l).
Proof.
  intros HA Ha Hb HS. unfold getInterval.
  rewrite (scan_up_spec _ (fun e => Z.ltb (key e) (ns a))); [|now apply (time_lt_ok k)|apply Nat.le_refl].
  rewrite Nat.add_0_l. cbn [bind]. rewrite firstn_all2 by (cbn; lia). cbn [skipn].
  rewrite takewhile_mono_filter.
  2:{ eapply StronglySorted_impl; [|exact HS]. cbn. intros. rewrite Z.ltb_lt in *. lia. }
  set (l1 := filter (fun e => Z.ltb (key e) (ns a)) l).
  assert (Hlen : length l1 <= length l).
  { apply filter_len_le. }
  rewrite (scan_up_spec _ (fun e => Z.leb (key e) (ns b))); [|now apply (time_le_ok k)|lia].
  cbn [bind]. unfold slice. f_equal.
  replace (length l1 + _ - length l1)
    with (length (takewhile (fun e => Z.leb (key e) (ns b)) (firstn (length l - length l1) (skipn (length l1) l)))) by lia.
  rewrite (firstn_all2 (n := length l - length l1)) by (rewrite skipn_length; lia).
  rewrite firstn_takewhile. unfold l1. rewrite skipn_filter_prefix.
  2:{ eapply StronglySorted_impl; [|exact HS]. cbn. intros. rewrite Z.ltb_lt in *. lia. }
  rewrite takewhile_mono_filter.
  2:{ eapply StronglySorted_impl; [|apply filter_sorted; exact HS]. cbn. intros. rewrite Z.leb_le in *. lia. }
  rewrite filter_filter. apply filter_ext. intros x. f_equal. rewrite Z.ltb_antisym, negb_involutive. reflexivity.
Qed.

(** surrounding *)
Lemma surround_start_spec k a l i :
  all_clk k l -> clk a = k -> i < length l ->
  exists j, surround_start stamp a l i = Ok j /\ j <= i /\
    (j = 0 \/ exists e, nth_error l j = Some e /\ (key e <= ns a)%Z) /\
    (forall m e, j < m <= i -> nth_error l m = Some e -> (ns a < key e)%Z).
Proof.
  intros HA Ha. induction i as [|i IH]; intros Hi; cbn [surround_start].
  - exists 0. repeat split; auto. lia.
  - destruct (nth_error l (S i)) as [e|] eqn:He.
    2:{ apply nth_error_None in He. lia. }
    rewrite (time_gt_ok k l); auto. 2:{ now apply nth_error_In in He. }
    cbn. destruct (Z.ltb_spec (ns a) (key e)).
    + destruct IH as (j & Hj & Hle & H1 & H2); [lia|].
      exists j. repeat split; auto; try lia. intros m e' Hm Hm'.
      destruct (Nat.eq_dec m (S i)) as [->|].
      * rewrite He in Hm'; injection Hm' as <-; auto.
      * apply (H2 m); auto; lia.
    + exists (S i). repeat split; auto.
      * right. exists e. split; auto.
      * lia.
Qed.

Lemma scan_up_exists p (q : E -> bool) l k i :
  (forall e, In e l -> p e = Ok (q e)) -> i + k <= length l ->
  exists j, scan_up p l k i = Ok j /\ i <= j <= i + k /\
    (forall m e, i <= m < j -> nth_error l m = Some e -> q e = true) /\
    (j = i + k \/ exists e, nth_error l j = Some e /\ q e = false).
Proof.
  intros Hp. revert i; induction k as [|k IH]; intros i Hk; cbn [scan_up].
  - exists i. repeat split; auto; try lia.
  - destruct (nth_error l i) as [e|] eqn:He.
    2:{ apply nth_error_None in He. lia. }
    rewrite Hp by (now apply nth_error_In in He). cbn. destruct (q e) eqn:Hq.
    + destruct (IH (S i)) as (j & Hj & Hle & H1 & H2); [lia|].
      exists j. repeat split; auto; try lia.
      * intros m e' Hm Hm'. destruct (Nat.eq_dec m i) as [->|].
        -- rewrite He in Hm'; injection Hm' as <-; auto.
        -- apply (H1 m); auto; lia.
      * destruct H2 as [->|H2]; [left; lia|auto].
    + exists i. repeat split; auto; try lia. right; eauto.
Qed.

Lemma nth_error_split_at {A} (l : list A) i j :
  i <= j -> j < length l ->
  exists pre r post, l = pre ++ r ++ post /\ length pre = i /\ length r = S (j - i) /\
    firstn (S j - i) (skipn i l) = r.
Proof.
  intros Hij Hj. exists (firstn i l), (firstn (S j - i) (skipn i l)), (skipn (S j - i) (skipn i l)).
  rewrite !firstn_skipn. repeat split; auto.
  - rewrite firstn_length. lia.
  - rewrite firstn_length, skipn_length. lia.
Qed.

Lemma in_nth_shift {A} (pre l post : list A) x :
  In x l -> exists m, length pre <= m < length pre + length l /\ nth_error (pre ++ l ++ post) m = Some x.
Proof.
  intros Hx. apply In_nth_error in Hx as [m Hm].
  assert (m < length l) by (apply nth_error_Some; congruence).
  exists (length pre + m). split; [lia|].
  rewrite nth_error_app2 by lia. replace (length pre + m - length pre) with m by lia.
  now rewrite nth_error_app1.
Qed.

Lemma getSurrounding_spec k a b l :
  all_clk k l -> clk a = k -> clk b = k -> sorted l ->
  exists r, getSurroundingInterval stamp a b l = Ok r /\ surrounding stamp (ns a) (ns b) l r.
Proof.
  intros HA Ha Hb HS. unfold getSurroundingInterval.
  destruct l as [|x0 l0]; [exists []; split; auto; left; auto|].
  set (l := x0 :: l0) in *. assert (Hlen : 0 < length l) by (cbn; lia).
  destruct (surround_start_spec k a l (length l - 1)) as (i & Hi & Hile & Hi1 & Hi2); auto; [lia|].
  rewrite Hi; cbn [bind].
  destruct (scan_up_exists (fun e => time_lt (stamp e) b) (fun e => Z.ltb (key e) (ns b)) l (length l - 1 - i) i)
    as (j & Hj & Hjle & Hj1 & Hj2); [now apply (time_lt_ok k)|lia|].
  rewrite Hj; cbn [bind]. eexists; split; [reflexivity|]. right.
  destruct (nth_error_split_at l i j) as (pre & r & post & Hl & Hpre & Hr & Hsl); try lia.
  unfold slice. replace (j + 1 - i) with (S j - i) by lia. rewrite Hsl.
  destruct r as [|f more]; [cbn in Hr; lia|].
  destruct (exists_last (l := f :: more)) as (but & la & Hla); [congruence|].
  exists pre, post, f, more, la, but. repeat split; auto.
  - destruct Hi1 as [->|(e & He & Hle)].
    + left. destruct pre; auto; cbn in *; lia.
    + right. rewrite Hl in He. rewrite nth_error_app2 in He by lia. rewrite Hpre, Nat.sub_diag in He.
      cbn in He. injection He as <-; auto.
  - intros x Hx. destruct (in_nth_shift (pre ++ [f]) (more ++ post) [] x Hx) as (m & Hm & Hm').
    rewrite app_nil_r in Hm'. rewrite <- app_assoc in Hm'. cbn [app] in Hm'.
    assert (Hl' : l = pre ++ f :: more ++ post) by (rewrite Hl; reflexivity).
    rewrite <- Hl' in Hm'. apply (Hi2 m); auto.
    rewrite app_length in Hm; cbn in Hm. split; [lia|].
    assert (m < length l) by (apply nth_error_Some; congruence). lia.
  - intros x Hx. destruct (in_nth_shift pre but ([la] ++ post) x Hx) as (m & Hm & Hm').
    assert (Hl' : l = pre ++ but ++ [la] ++ post).
    { rewrite Hl, Hla. now rewrite <- app_assoc. }
    rewrite <- Hl' in Hm'. apply Z.ltb_lt, (Hj1 m); auto.
    assert (length but = j - i).
    { apply (f_equal (@length E)) in Hla. rewrite app_length in Hla. cbn in Hla, Hr. lia. }
    lia.
  - assert (length but = j - i).
    { apply (f_equal (@length E)) in Hla. rewrite app_length in Hla. cbn in Hla, Hr. lia. }
    destruct Hj2 as [Hj2|(e & He & Hq)].
    + left. apply (f_equal (@length E)) in Hl. rewrite !app_length in Hl. cbn [length] in Hl, Hr.
      destruct post; auto. cbn [length] in Hl. lia.
    + right. rewrite Hl, Hla, nth_error_app2 in He by lia. rewrite Hpre, <- app_assoc in He.
      rewrite nth_error_app2 in He by lia. rewrite H, Nat.sub_diag in He. cbn in He.
      injection He as <-. apply Z.ltb_ge in Hq. auto.
Qed.

Lemma surrounding_unique a b l r r' :
  surrounding stamp a b l r -> surrounding stamp a b l r' -> r = r'.
Proof.
  intros [[-> ->]|(pre & post & f & more & la & but & Hl & Hr & Hr2 & H1 & H2 & H3 & H4)];
  intros [[Hl' ->]|(pre' & post' & f' & more' & la' & but' & Hl' & Hr' & Hr2' & H1' & H2' & H3' & H4')]; auto.
  - apply (f_equal (@length E)) in Hl'. rewrite !app_length in Hl'. subst r'. cbn in Hl'. lia.
  - exfalso. rewrite Hl in Hl'. apply (f_equal (@length E)) in Hl'. rewrite !app_length in Hl'. subst r. cbn in Hl'. lia.
  - assert (Hpre : pre = pre').
    { assert (Hcmp : forall (pre pre' : list E) f f' more more' post post',
        pre ++ (f :: more) ++ post = pre' ++ (f' :: more') ++ post' ->
        (pre' = [] \/ (key f' <= a)%Z) ->
        (forall x, In x (more ++ post) -> (a < key x)%Z) -> length pre' <= length pre).
      { clear. intros pre pre' f f' more more' post post' Heq HH Hgt.
        destruct (le_lt_dec (length pre') (length pre)) as [|Hlt]; auto.
        exfalso. destruct HH as [->|HH]; [cbn in Hlt; lia|].
        assert (Hin : In f' (more ++ post)).
        { assert (He : nth_error (pre' ++ (f' :: more') ++ post') (length pre') = Some f').
          { rewrite nth_error_app2 by lia. rewrite Nat.sub_diag. reflexivity. }
          rewrite <- Heq in He. rewrite nth_error_app2 in He by lia.
          destruct (length pre' - length pre) as [|d] eqn:Hd; [lia|]. cbn in He.
          now apply nth_error_In in He. }
        apply Hgt in Hin. lia. }
      assert (length pre = length pre').
      { rewrite Hl, Hr, Hr' in Hl'. apply Nat.le_antisymm.
        - eapply Hcmp; [symmetry; exact Hl'| |]; auto.
        - eapply Hcmp; [exact Hl'| |]; auto. }
      rewrite Hl in Hl'. clear -Hl' H. revert pre' H Hl'.
      induction pre as [|x p IH]; intros [|x' p'] Hlen Heq; cbn in *; try lia; auto.
      injection Heq as -> Heq. f_equal. eauto. }
    subst pre'. rewrite Hl in Hl'. apply app_inv_head in Hl'.
    assert (Hcmp : forall (but but' : list E) la la' post post',
        but ++ [la] ++ post = but' ++ [la'] ++ post' ->
        (post' = [] \/ (b <= key la')%Z) ->
        (forall x, In x but -> (key x < b)%Z) -> length but <= length but').
    { clear. intros but but' la la' post post' Heq HH Hlt.
      destruct (le_lt_dec (length but) (length but')) as [|Hgt]; auto. exfalso.
      destruct HH as [->|HH].
      - apply (f_equal (@length E)) in Heq. rewrite !app_length in Heq. cbn in Heq. lia.
      - assert (Hin : In la' but).
        { assert (He : nth_error (but' ++ [la'] ++ post') (length but') = Some la').
          { rewrite nth_error_app2 by lia. rewrite Nat.sub_diag. reflexivity. }
          rewrite <- Heq in He. rewrite nth_error_app1 in He by lia.
          now apply nth_error_In in He. }
        apply Hlt in Hin. lia. }
    rewrite Hr2, Hr2', <- !app_assoc in Hl'.
    assert (Hlen : length but = length but').
    { apply Nat.le_antisymm.
      - eapply Hcmp; [exact Hl'| |]; auto.
      - eapply Hcmp; [symmetry; exact Hl'| |]; auto. }
    rewrite Hr2, Hr2'. clear -Hl' Hlen. revert but' Hlen Hl'.
    induction but as [|x p IH]; intros [|x' p'] Hlen Heq; cbn in *; try lia.
    + injection Heq; intros; now subst.
    + injection Heq as -> Heq. f_equal. eauto.
Qed.

(** before / after *)
Lemma getBefore_spec k t l :
  all_clk k l -> clk t = k -> sorted l ->
  exists r, getElemBeforeTime stamp t l = Ok r /\ newest_before stamp (ns t) l r.
Proof.
  intros HA Ht HS. unfold getElemBeforeTime.
  destruct (scan_up_exists (fun e => time_lt (stamp e) t) (fun e => Z.ltb (key e) (ns t)) l (length l) 0)
    as (j & Hj & Hjle & Hj1 & Hj2); [now apply (time_lt_ok k)|lia|].
  rewrite Hj; cbn [bind]. eexists; split; [reflexivity|].
  assert (Hge : forall m x, j <= m -> nth_error l m = Some x -> (ns t <= key x)%Z).
  { intros m x Hm Hx. destruct Hj2 as [->|(e & He & Hq)].
    - assert (m < length l) by (apply nth_error_Some; congruence). lia.
    - apply Z.ltb_ge in Hq. destruct (Nat.eq_dec m j) as [->|].
      + congruence.
      + apply nth_error_split in He as (l1 & l2 & -> & Hl1).
        unfold nondecreasing in HS.
        apply StronglySorted_app in HS as (_ & HS & _). inversion HS; subst.
        rewrite nth_error_app2 in Hx by lia.
        destruct (m - length l1) as [|d] eqn:Hd; [lia|]. cbn in Hx. apply nth_error_In in Hx.
        rewrite Forall_forall in H2. specialize (H2 _ Hx). lia. }
  destruct j as [|j]; cbn.
  - intros x Hx. apply In_nth_error in Hx as [m Hm]. apply (Hge m); auto. lia.
  - destruct (nth_error l j) as [e|] eqn:He.
    2:{ apply nth_error_None in He. lia. }
    split. { apply Z.ltb_lt, (Hj1 j); auto; lia. }
    apply nth_error_split in He as He'. destruct He' as (l1 & l2 & Hl & Hl1).
    exists l1, l2. split; auto. subst l. split.
    + unfold nondecreasing in HS. apply StronglySorted_app in HS as (_ & _ & HS).
      intros x Hx. apply HS; cbn; auto.
    + intros x Hx. destruct (in_nth_shift (l1 ++ [e]) l2 [] x Hx) as (m & Hm & Hm').
      rewrite app_nil_r, <- app_assoc in Hm'. cbn in Hm'. apply (Hge m); auto.
      rewrite app_length in Hm; cbn in Hm. lia.
Qed.

Lemma after_index_spec k t l n o :
  all_clk k l -> clk t = k -> n <= length l ->
  exists j, after_index stamp t l n o = Ok (if Nat.eqb j n then o else Some j) /\ j <= n /\
    (j = 0 \/ exists e, nth_error l (j - 1) = Some e /\ (key e <= ns t)%Z) /\
    (forall m e, j <= m < n -> nth_error l m = Some e -> (ns t < key e)%Z).
Proof.
  intros HA Ht. revert o; induction n as [|i IH]; intros o Hi; cbn [after_index].
  - exists 0. repeat split; auto. lia.
  - destruct (nth_error l i) as [e|] eqn:He.
    2:{ apply nth_error_None in He. lia. }
    rewrite (time_gt_ok k l); auto. 2:{ now apply nth_error_In in He. }
    cbn [bind]. destruct (Z.ltb_spec (ns t) (key e)).
    + destruct (IH (Some i)) as (j & Hj & Hle & H1 & H2); [lia|].
      exists j. rewrite Hj. repeat split; auto; try lia.
      * destruct (Nat.eqb_spec j i), (Nat.eqb_spec j (S i)); subst; auto; try lia.
      * intros m e' Hm Hm'. destruct (Nat.eq_dec m i) as [->|].
        -- rewrite He in Hm'; injection Hm' as <-; auto.
        -- apply (H2 m); auto; lia.
    + exists (S i). rewrite Nat.eqb_refl. repeat split; auto.
      * right. exists e. replace (S i - 1) with i by lia. auto.
      * lia.
Qed.

Lemma getAfter_spec k t l :
  all_clk k l -> clk t = k -> sorted l ->
  exists r, getElemAfterTime stamp t l = Ok r /\ oldest_after stamp (ns t) l r.
Proof.
  intros HA Ht HS. unfold getElemAfterTime.
  destruct (after_index_spec k t l (length l) None) as (j & Hj & Hle & H1 & H2); auto.
  rewrite Hj; cbn [bind]. eexists; split; [reflexivity|].
  assert (Hlt : forall m x, m < j -> nth_error l m = Some x -> (key x <= ns t)%Z).
  { intros m x Hm Hx. destruct H1 as [->|(e & He & Hq)]; [lia|].
    destruct (Nat.eq_dec m (j - 1)) as [->|]; [congruence|].
    apply nth_error_split in He as (l1 & l2 & -> & Hl1).
    unfold nondecreasing in HS. apply StronglySorted_app in HS as (_ & _ & HS).
    rewrite nth_error_app1 in Hx by lia. apply nth_error_In in Hx.
    specialize (HS x e Hx). cbn in HS. assert (key x <= key e)%Z by (apply HS; auto). lia. }
  destruct (Nat.eqb_spec j (length l)) as [Hjl|Hne].
  - cbn. intros x Hx. apply In_nth_error in Hx as [m Hm]. apply (Hlt m); auto.
    rewrite Hjl. apply nth_error_Some. congruence.
  - destruct (nth_error l j) as [e|] eqn:He.
    2:{ apply nth_error_None in He. lia. }
    cbn. split. { apply (H2 j); auto; lia. }
    apply nth_error_split in He as He'. destruct He' as (l1 & l2 & Hl & Hl1).
    exists l1, l2. split; auto. subst l. split.
    + intros x Hx. destruct (in_nth_shift [] l1 (e :: l2) x Hx) as (m & Hm & Hm').
      cbn in Hm, Hm'. apply (Hlt m); auto. lia.
    + unfold nondecreasing in HS. apply StronglySorted_app in HS as (_ & HS & _).
      inversion HS; subst. now rewrite Forall_forall in H4.
Qed.

(** latest / oldest *)
Lemma getLatest_spec l : sorted l ->
  (l = [] -> getLatestTime stamp l = time_default) /\
  (forall e, In e l -> (key e <= ns (getLatestTime stamp l))%Z) /\
  (l <> [] -> exists e, In e l /\ getLatestTime stamp l = stamp e).
Proof.
  intros HS. unfold getLatestTime. destruct (rev l) as [|x t] eqn:Hr.
  - assert (l = []) by (rewrite <- (rev_involutive l), Hr; reflexivity). subst.
    repeat split; auto; try tauto. intros e [].
  - assert (Hl : l = rev t ++ [x]) by (rewrite <- (rev_involutive l), Hr; reflexivity).
    subst l. repeat split.
    + destruct (rev t); cbn; congruence.
    + apply StronglySorted_app in HS as (_ & _ & HS).
      intros e He. apply in_app_or in He as [He|[<-|[]]]; [|reflexivity].
      apply (HS e x); cbn; auto.
    + intros _. exists x. split; auto. apply in_or_app; cbn; auto.
Qed.

Lemma getOldest_spec l : sorted l ->
  (l = [] -> getOldestTime stamp l = time_default) /\
  (forall e, In e l -> (ns (getOldestTime stamp l) <= key e)%Z) /\
  (l <> [] -> exists e, In e l /\ getOldestTime stamp l = stamp e).
Proof.
  intros HS. unfold getOldestTime. destruct l as [|x t].
  - repeat split; auto; try tauto. intros e [].
  - repeat split; try congruence.
    + inversion HS; subst. rewrite Forall_forall in H2.
      intros e [<-|He]; [reflexivity|]. now apply H2.
    + intros _. exists x. cbn; auto.
Qed.

(** ** in-order arrivals: the last N *)
Lemma filter_all {A} (p : A -> bool) l : (forall x, In x l -> p x = true) -> filter p l = l.
Proof. induction l as [|x l IH]; cbn; auto. intros H. rewrite H; auto. f_equal; auto. Qed.
Lemma filter_none {A} (p : A -> bool) l : (forall x, In x l -> p x = false) -> filter p l = [].
Proof. induction l as [|x l IH]; cbn; auto. intros H. rewrite H; auto. Qed.

Lemma ins_back e l : (forall x, In x l -> (key x <= key e)%Z) -> ins e l = l ++ [e].
Proof.
  intros H. unfold ins. rewrite filter_all, filter_none; auto.
  - intros x Hx. apply negb_false_iff, Z.leb_le; auto.
  - intros x Hx. apply Z.leb_le; auto.
Qed.

Lemma skipn_skipn' {A} (l : list A) a b : skipn a (skipn b l) = skipn (b + a) l.
Proof. revert l; induction b; intros [|x l]; cbn; auto. now rewrite skipn_nil. Qed.

Lemma lastn_snoc n (l : list E) e : 0 < n -> lastn n (l ++ [e]) = skipn (S (length (lastn n l)) - n) (lastn n l) ++ [e].
Proof.
  intros Hn. unfold lastn. rewrite app_length; cbn [length].
  rewrite skipn_app. rewrite skipn_skipn'. rewrite skipn_length.
  replace (length l + 1 - n - length l) with 0 by lia. cbn [skipn]. f_equal. f_equal. lia.
Qed.

Lemma in_order_lastn k n (es : list E) :
  0 < n -> (forall e, In e es -> clk (stamp e) = k) -> nondecreasing key es ->
  contents (final stamp n (map (fun e => Add e) es)) = lastn n es.
Proof.
  intros Hn. induction es as [|e es IH] using rev_ind; intros HC HS.
  - unfold final; cbn. destruct n; reflexivity.
  - apply StronglySorted_app in HS as (HS & _ & HX).
    assert (HC' : forall x, In x es -> clk (stamp x) = k) by (intros; apply HC, in_or_app; auto).
    specialize (IH HC' HS). rewrite map_app; cbn [map]. rewrite final_snoc. cbn [step].
    assert (Hin : forall x, In x (lastn n es) -> In x es) by (intros x Hx; eapply skipn_in; exact Hx).
    pose proof (final_inv n (map (fun e => Add e) es)) as (_ & HS' & _).
    assert (Hcap : cap (final stamp n (map (fun e => Add e) es)) = Some n).
    { rewrite final_cap. destruct n; [lia|]. cbn. clear. induction es; cbn; auto. }
    rewrite (add_spec k n); auto.
    + cbn [fst contents]. rewrite IH. rewrite ins_back. 2:{ intros x Hx. apply skipn_in in Hx.
        apply HX; cbn; auto. }
      now rewrite lastn_snoc.
    + rewrite IH. intros x Hx. apply HC'. auto.
    + apply HC, in_or_app; cbn; auto.
Qed.

Lemma ins_perm e l : Permutation (ins e l) (e :: l).
Proof.
  unfold ins. rewrite <- Permutation_middle. constructor.
  induction l as [|x l IH]; cbn; auto. destruct (Z.leb (key x) (key e)); cbn.
  - now constructor.
  - rewrite <- Permutation_middle. now constructor.
Qed.

(** mixed clocks in queries *)
Lemma query_mixed_lt k t l :
  all_clk k l -> clk t <> k -> l <> [] ->
  scan_up (fun e => time_lt (stamp e) t) l (length l) 0 = Err Thrown.
Proof.
  intros HA Ht Hne. destruct l as [|x l]; [congruence|]. cbn.
  unfold time_lt. rewrite (HA x) by (cbn; auto).
  destruct (clock_eqb_spec k (clk t)) as [Hk|_]; [congruence|]. reflexivity.
Qed.

Lemma after_mixed k t l :
  all_clk k l -> clk t <> k -> l <> [] -> after_index stamp t l (length l) None = Err Thrown.
Proof.
  intros HA Ht Hne. destruct (length l) as [|i] eqn:Hl; [destruct l; cbn in *; congruence|]. cbn.
  destruct (nth_error l i) as [e|] eqn:He. 2:{ apply nth_error_None in He. lia. }
  unfold time_gt, time_lt. rewrite (HA e) by (now apply nth_error_In in He).
  destruct (clock_eqb_spec (clk t) k) as [Hk|_]; [congruence|]. reflexivity.
Qed.

(** a foreign end of the interval is only compared with the messages at or after the start *)
Lemma interval_mixed_end k a b l :
  all_clk k l -> clk a = k -> clk b <> k -> sorted l ->
  getInterval stamp a b l =
    if existsb (fun e => Z.leb (ns a) (key e)) l then Err Thrown else Ok [].
Proof.
  intros HA Ha Hb HS. unfold getInterval.
  destruct (scan_up_exists (fun e => time_lt (stamp e) a) (fun e => Z.ltb (key e) (ns a)) l (length l) 0) as (i & Hi & Hb1 & Hall & Hstop);
    [now apply (time_lt_ok k)|lia|].
  rewrite Hi. cbn [bind]. destruct (nth_error l i) as [e|] eqn:He.
  - assert (In e l) as Hin by now apply nth_error_In in He.
    assert (i < length l) as Hl by (apply nth_error_Some; congruence).
    destruct (Nat.eq_dec i (0 + length l)) as [|Hn]; [lia|].
    replace (existsb _ l) with true.
    2:{ symmetry. apply existsb_exists. exists e. split; auto. apply Z.leb_le.
        destruct Hstop as [?|(e' & He' & Hq)]; [lia|]. assert (e' = e) as -> by congruence. cbn in Hq. apply Z.ltb_ge in Hq. lia. }
    destruct (length l - i) as [|d] eqn:Ed; [lia|]. cbn [scan_up]. rewrite He.
    unfold time_le. rewrite (HA e Hin). destruct (clock_eqb_spec k (clk b)) as [?|_]; [congruence|]. reflexivity.
  - apply nth_error_None in He. assert (i = length l) as -> by lia. rewrite Nat.sub_diag. cbn.
    replace (existsb _ l) with false.
    2:{ symmetry. apply not_true_is_false. intros H. apply existsb_exists in H as (e & Hin & Hq). apply Z.leb_le in Hq.
        apply In_nth_error in Hin as (j & Hj). assert (j < length l) by (apply nth_error_Some; congruence).
        specialize (Hall j e ltac:(lia) Hj). cbn in Hall. apply Z.ltb_lt in Hall. lia. }
    unfold slice. now rewrite Nat.sub_diag.
Qed.

Lemma surrounding_one k a b (e : E) : all_clk k [e] -> getSurroundingInterval stamp a b [e] = Ok [e].
Proof. reflexivity. Qed.

Lemma surrounding_mixed_start k a b l :
  all_clk k l -> clk a <> k -> 2 <= length l -> getSurroundingInterval stamp a b l = Err Thrown.
Proof.
  intros HA Ha Hl. unfold getSurroundingInterval. destruct l as [|x l]; [cbn in Hl; lia|].
  destruct (length (x :: l) - 1) as [|i] eqn:Ei; [lia|]. cbn [surround_start].
  destruct (nth_error (x :: l) (S i)) as [e|] eqn:He. 2:{ apply nth_error_None in He. lia. }
  unfold time_gt, time_lt. rewrite (HA e) by (now apply nth_error_In in He).
  destruct (clock_eqb_spec (clk a) k) as [Hk|_]; [congruence|]. reflexivity.
Qed.

Lemma surrounding_mixed_end k a b l x :
  all_clk k (l ++ [x]) -> clk a = k -> clk b <> k -> l <> [] ->
  getSurroundingInterval stamp a b (l ++ [x]) = if Z.ltb (ns a) (key x) then Err Thrown else Ok [x].
Proof.
  intros HA Ha Hb Hl. unfold getSurroundingInterval. destruct l as [|y l]; [congruence|]. cbn [app].
  change (y :: l ++ [x]) with ((y :: l) ++ [x]). set (m := y :: l) in *. assert (length (m ++ [x]) - 1 = length m) as -> by (rewrite app_length; cbn; lia).
  assert (nth_error (m ++ [x]) (length m) = Some x) as Hx.
  { rewrite nth_error_app2, Nat.sub_diag by lia. reflexivity. }
  assert (length m = S (length l)) as Em by reflexivity.
  destruct (surround_start_spec k a (m ++ [x]) (length m) HA Ha) as (j & Hj & Hle & H1 & H2); [rewrite app_length; cbn; lia|].
  rewrite Hj. cbn [bind]. destruct (Z.ltb_spec (ns a) (key x)) as [Hc|Hc].
  - assert (j <> length m) as Hjm.
    { intros ->. destruct H1 as [?|(e & He & Hk)]; [lia|]. rewrite Hx in He. injection He as <-. lia. }
    destruct (length m - j) as [|d] eqn:Ed; [lia|]. cbn [scan_up].
    destruct (nth_error (m ++ [x]) j) as [e|] eqn:He. 2:{ apply nth_error_None in He. rewrite app_length in He. lia. }
    unfold time_lt. rewrite (HA e) by (now apply nth_error_In in He).
    destruct (clock_eqb_spec k (clk b)) as [?|_]; [congruence|]. reflexivity.
  - assert (j = length m) as ->.
    { destruct (Nat.eq_dec j (length m)); auto. specialize (H2 (length m) x ltac:(lia) Hx). lia. }
    rewrite Nat.sub_diag. cbn [scan_up bind]. unfold slice. replace (length m + 1 - length m) with 1 by lia.
    rewrite skipn_app, skipn_all, Nat.sub_diag. reflexivity.
Qed.

Lemma step_query_state s o :
  (forall n, o <> SetSize n) -> (forall e, o <> Add e) -> fst (step stamp s o) = s.
Proof. intros H1 H2. destruct o; cbn; auto; [exfalso; eapply H1 | exfalso; eapply H2]; reflexivity. Qed.
End Proofs.
