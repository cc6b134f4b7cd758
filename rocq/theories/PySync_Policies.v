(** The Python synchronizers: what one call does, for each policy. *)
From Coq Require Import List ZArith Bool Lia Permutation.
From Verif Require Import Base Py_Model PySync_Spec PySync_Proofs PySync_Runs.
Import ListNotations.
Open Scope Z_scope.

Section Policies.
Context {M : Type}.
Notation dict := (list (Z * M)).

(** ** Exact *)
Lemma zinsert_perm x l : Permutation (x :: l) (zinsert x l).
Proof. induction l as [|y l IH]; cbn; auto. destruct (x <=? y); auto. rewrite perm_swap. now apply perm_skip. Qed.
Lemma zsort_perm l : Permutation l (zsort l).
Proof. induction l as [|x l IH]; cbn; auto. rewrite <- zinsert_perm. now apply perm_skip. Qed.
Lemma common_In x (qs : list dict) : qs <> [] -> (In x (common qs) <-> forall q, In q qs -> In x (keys q)).
Proof.
  intros N. destruct qs as [|q r]; [contradiction|]. unfold common.
  assert (P : In x (zsort (filter (fun t => forallb (has t) r) (keys q))) <-> In x (filter (fun t => forallb (has t) r) (keys q))).
  { split; apply Permutation_in; [symmetry|]; apply zsort_perm. }
  rewrite P, filter_In, forallb_forall. split.
  - intros [H1 H2] q' [<-|Hq]; auto. apply has_In; auto.
  - intros H. split; [apply H; now left|]. intros q' Hq. apply has_In, H. now right.
Qed.
Lemma common_NoDup (qs : list dict) : Forall dictok qs -> NoDup (common qs).
Proof.
  intros F. destruct qs as [|q r]; [constructor|]. unfold common. eapply Permutation_NoDup; [apply zsort_perm|]. apply NoDup_filter. now inversion F.
Qed.
Lemma choice_same x (qs : list dict) : (forall q, In q qs -> In x (keys q)) -> choice qs (map (fun _ => x) qs).
Proof. induction qs as [|q qs IH]; intros H; cbn; constructor; [apply H; now left|apply IH; intros q' Hq; apply H; now right]. Qed.
Lemma same_map x (qs : list dict) : same (map (fun _ => x) qs).
Proof. intros a b Ha Hb. apply in_map_iff in Ha as (? & <- & _). apply in_map_iff in Hb as (? & <- & _). reflexivity. Qed.

Lemma exact_obeys raises : obeys (M := M) raises same (add_exact raises) false.
Proof.
  intros s i m hd now s' out ex E. cbn in E. unfold exact_add in E. destruct (locked s) eqn:El; [discriminate|]. destruct (nth_error (queues s) i) as [q|] eqn:Eq; [|discriminate].
  destruct hd as [| |t]; cbn [time_of].
  1,2: injection E as <- <- <-; repeat split; auto; discriminate.
  split; auto. intros HF HC. destruct (shorten (queue_size s) (put t m q)) as [q'|] eqn:Es.
  2:{ injection E as <- <- <-. constructor. eapply shorten_None; eauto. apply put_ok. rewrite Forall_forall in HF. apply HF. eapply nth_error_In; eauto. }
  cbn [queues with_queues] in E. set (qs1 := upd i q' (queues s)) in *.
  assert (St : stores (queue_size s) i t m (queues s) qs1) by (exists q, q'; auto). destruct (stores_facts _ _ _ _ _ _ St HF) as (F1 & HL & _ & _).
  assert (Hne : qs1 <> []). { intros Z. rewrite Z in HL. destruct (queues s); [destruct i|]; discriminate. }
  assert (Hi : (i < length qs1)%nat) by (rewrite HL; apply nth_error_Some; congruence).
  assert (Hnth : forall x : Z, nth_error (map (fun _ : dict => x) qs1) i = Some x).
  { intros x. rewrite nth_error_map. destruct (nth_error qs1 i) eqn:En; auto. apply nth_error_None in En. lia. }
  assert (Honly : forall x, In x (common qs1) -> x = t).
  { intros x Hx. pose proof (proj1 (common_In x qs1 Hne) Hx) as Hx'. destruct (Z.eq_dec x t) as [|N]; auto. exfalso. apply (HC (map (fun _ => x) qs1)).
    - eapply old_choice; eauto; [apply choice_same; exact Hx'|]. rewrite Hnth. congruence.
    - destruct qs1; [contradiction|discriminate].
    - apply same_map. }
  pose proof (common_NoDup qs1 F1) as Nd. destruct (common qs1) as [|x l] eqn:Ec.
  - cbn in E. injection E as <- <- <-. apply K_store; auto. intros ts C Et S. assert (In t (common qs1)); [|rewrite Ec in *; auto].
    apply (common_In t qs1 Hne). intros q0 Hq0. apply In_nth_error in Hq0 as (j & Hj). apply choice_nth in C as [CL C]. destruct (nth_error ts j) as [t0|] eqn:E0.
    + rewrite (S t t0); [eapply C; eauto|eapply nth_error_In; eauto|eapply nth_error_In; eauto].
    + apply nth_error_None in E0. rewrite CL in E0. apply nth_error_None in E0. congruence.
  - assert (x = t) as -> by (apply Honly; now left). assert (l = []) as ->. { destruct l as [|y l]; auto. inversion Nd as [|? ? N1 _]; subst. destruct N1. rewrite (Honly y); [now left|right; now left]. }
    assert (C : choice qs1 (map (fun _ => t) qs1)) by (apply choice_same; apply (common_In t qs1 Hne); rewrite Ec; now left).
    destruct (get_all_spec _ _ C F1) as (ms & Eg & _). cbn [deliver_common queues with_queues] in E. rewrite Eg in E. destruct (raises ms) eqn:Er.
    + injection E as <- <- <-. eapply (K_raise _ _ _ _ _ _ qs1); eauto. apply same_map.
    + cbn in E. injection E as <- <- <-. change (with_queues (with_queues s qs1) (map (del t) qs1)) with (with_queues s (map (del t) qs1)). rewrite map_del_all. eapply (K_deliver _ _ _ _ _ _ qs1); eauto. apply same_map.
Qed.

(** ** Approximate *)
Lemma fold_max l : forall x, x <= fold_left Z.max l x /\ (forall y, In y l -> y <= fold_left Z.max l x) /\ (fold_left Z.max l x = x \/ In (fold_left Z.max l x) l).
Proof.
  induction l as [|a l IH]; cbn; intros x; [split; [lia|split; [intros y []|auto]]|]. destruct (IH (Z.max x a)) as (A & B & C). split; [lia|]. split; [intros y [<-|Hy]; [lia|auto]|].
  destruct C as [C|C]; auto. destruct (Z.max_spec x a) as [[_ E]|[_ E]]; rewrite E in *; auto.
Qed.
Lemma fold_min l : forall x, fold_left Z.min l x <= x /\ (forall y, In y l -> fold_left Z.min l x <= y) /\ (fold_left Z.min l x = x \/ In (fold_left Z.min l x) l).
Proof.
  induction l as [|a l IH]; cbn; intros x; [split; [lia|split; [intros y []|auto]]|]. destruct (IH (Z.min x a)) as (A & B & C). split; [lia|]. split; [intros y [<-|Hy]; [lia|auto]|].
  destruct C as [C|C]; auto. destruct (Z.min_spec x a) as [[_ E]|[_ E]]; rewrite E in *; auto.
Qed.
Lemma within_spec d ts : ts <> [] -> (zmax ts - zmin ts < d <-> within d ts).
Proof.
  destruct ts as [|x l]; [contradiction|]. intros _. unfold zmax, zmin. destruct (fold_max l x) as (A & B & C). destruct (fold_min l x) as (A' & B' & C'). split.
  - intros H a b Ha Hb. assert (a <= fold_left Z.max l x) by (destruct Ha as [<-|Ha]; auto). assert (fold_left Z.min l x <= b) by (destruct Hb as [<-|Hb]; auto). lia.
  - intros H. apply H; cbn; [destruct C as [->|C]|destruct C' as [->|C']]; auto.
Qed.
Lemma dinsert_perm t x l : Permutation (x :: l) (dinsert t x l).
Proof. induction l as [|y l IH]; cbn; auto. destruct (_ <=? _); auto. rewrite perm_swap. now apply perm_skip. Qed.
Lemma candidates_perm slop t (q : dict) : Permutation (filter (fun k => negb (slop <? Z.abs (k - t))) (keys q)) (candidates slop t q).
Proof. unfold candidates. generalize (filter (fun k => negb (slop <? Z.abs (k - t))) (keys q)); intros l; induction l as [|x l IH]; cbn; auto. rewrite <- dinsert_perm. now apply perm_skip. Qed.
Lemma candidates_In slop t x (q : dict) : In x (candidates slop t q) <-> In x (keys q) /\ Z.abs (x - t) <= slop.
Proof.
  assert (P : In x (candidates slop t q) <-> In x (filter (fun k => negb (slop <? Z.abs (k - t))) (keys q))) by (split; apply Permutation_in; [symmetry|]; apply candidates_perm).
  rewrite P, filter_In, negb_true_iff, Z.ltb_ge. reflexivity.
Qed.
(** closest first *)
Fixpoint closest (t : Z) (l : list Z) : Prop := match l with [] => True | x :: r => (forall y, In y r -> Z.abs (x - t) <= Z.abs (y - t)) /\ closest t r end.
Lemma dinsert_closest t x l : closest t l -> closest t (dinsert t x l).
Proof.
  induction l as [|y l IH]; cbn; [intros _; split; [intros ? []|exact I]|]. intros [H1 H2]. destruct (Z.leb_spec (Z.abs (x - t)) (Z.abs (y - t))) as [H|H]; cbn.
  - split; [|split; auto]. intros z [<-|Hz]; [exact H|]. specialize (H1 z Hz). lia.
  - split; auto. intros z Hz. eapply Permutation_in in Hz; [|symmetry; apply dinsert_perm]. destruct Hz as [<-|Hz]; [lia|auto].
Qed.
Lemma candidates_closest slop t (q : dict) : closest t (candidates slop t q).
Proof. unfold candidates. generalize (filter (fun k => negb (slop <? Z.abs (k - t))) (keys q)); intros l; induction l as [|x l IH]; cbn; auto. now apply dinsert_closest. Qed.

Lemma product_In (l : list (list Z)) : forall v, In v (product l) <-> Forall2 (fun c x => In x c) l v.
Proof.
  induction l as [|c l IH]; cbn; intros v.
  - split; [intros [<-|[]]; constructor|intros H; inversion H; auto].
  - rewrite in_flat_map. split.
    + intros (x & Hx & Hv). apply in_map_iff in Hv as (w & <- & Hw). constructor; auto. now apply IH.
    + intros H. inversion H as [|? x ? w Hx Hw]; subst. exists x. split; auto. apply in_map, IH, Hw.
Qed.
(** what comes earlier in the product is no farther *)
Fixpoint before_in {A} (a b : A) (l : list A) : Prop := match l with [] => False | x :: r => (x = a /\ In b r) \/ before_in a b r end.
Lemma before_in_app {A} (a b : A) l1 l2 : before_in a b (l1 ++ l2) -> before_in a b l1 \/ (In a l1 /\ In b l2) \/ before_in a b l2.
Proof.
  induction l1 as [|x l1 IH]; cbn; auto. intros [[-> H]|H].
  - apply in_app_or in H as [H|H]; auto.
  - destruct (IH H) as [?|[[? ?]|?]]; auto.
Qed.
Lemma before_in_map {A B} (f : A -> B) u v l : before_in u v (map f l) -> exists a b, u = f a /\ v = f b /\ before_in a b l.
Proof.
  induction l as [|x l IH]; cbn; [intros []|]. intros [[<- H]|H].
  - apply in_map_iff in H as (b & <- & Hb). exists x, b. auto.
  - destruct (IH H) as (a & b & -> & -> & Hab). eauto 6.
Qed.
Lemma find_before {A} (f : A -> bool) a b l : find f l = Some a -> In b l -> f b = true -> a = b \/ before_in a b l.
Proof.
  induction l as [|x l IH]; cbn; [discriminate|]. destruct (f x) eqn:Ef.
  - intros E [<-|Hb] _; [left|right]; injection E as ->; auto.
  - intros E [<-|Hb] Hf; [congruence|]. destruct (IH E Hb Hf); auto.
Qed.
Lemma product_order t (l : list (list Z)) : Forall (fun c => closest t c /\ NoDup c) l -> forall a b, before_in a b (product l) -> no_farther t a b.
Proof.
  induction l as [|c l IH]; cbn; intros F a b H; [destruct H as [[<- []]|[]]|]. inversion F as [|? ? [F1 F2] F3]; subst. clear F. specialize (IH F3). revert F1 F2 H.
  induction c as [|x c IHc]; cbn; [intros _ _ []|]. intros [F1 F1'] F2 H. inversion F2 as [|? ? N1 N2]; subst. apply before_in_app in H as [H|[[Ha Hb]|H]]; auto.
  - apply before_in_map in H as (u & v & -> & -> & H). cbn. left. auto.
  - apply in_map_iff in Ha as (u & <- & _). apply in_flat_map in Hb as (y & Hy & Hb). apply in_map_iff in Hb as (v & <- & Hv). cbn. right. split; [intros ->; contradiction|auto].
Qed.
Lemma no_farther_refl t a : no_farther t a a.
Proof. induction a; cbn; auto. Qed.
Lemma no_farther_insert t i : forall a b, length a = length b -> no_farther t a b -> no_farther t (insert_at i t a) (insert_at i t b).
Proof.
  induction i as [|i IH]; intros [|x a] [|y b] HL H; cbn in *; try lia; auto. destruct H as [[-> H]|H]; auto.
Qed.
Lemma insert_at_length i t : forall l, length (insert_at i t l) = S (length l).
Proof. induction i as [|i IH]; intros [|x l]; cbn; auto. Qed.
Lemma insert_at_nth i t : forall l, (i <= length l)%nat -> nth_error (insert_at i t l) i = Some t.
Proof. induction i as [|i IH]; intros [|x l] H; cbn in *; auto; try lia. apply IH. lia. Qed.
Lemma insert_at_back i t : forall l, nth_error l i = Some t -> insert_at i t (firstn i l ++ skipn (S i) l) = l.
Proof. induction i as [|i IH]; intros [|x l] H; cbn in *; try discriminate; [congruence|]. f_equal. now apply IH. Qed.
Lemma without_length {A} i : forall l : list A, (i < length l)%nat -> S (length (firstn i l ++ skipn (S i) l)) = length l.
Proof. induction i as [|i IH]; intros [|x l] H; cbn in *; try lia. f_equal. apply IH. lia. Qed.
Lemma without_Forall2 {A B} (P : A -> B -> Prop) i : forall l l', Forall2 P l l' -> Forall2 P (firstn i l ++ skipn (S i) l) (firstn i l' ++ skipn (S i) l').
Proof. induction i as [|i IH]; intros l l' H; destruct H as [|x y l l' Hxy H]; cbn; auto. constructor; auto. apply (IH _ _ H). Qed.
Lemma all_has_choice (qs : list dict) : forall ts, length ts = length qs -> (all_has qs ts = true <-> choice qs ts).
Proof.
  unfold all_has. induction qs as [|q qs IH]; intros [|t ts] HL; cbn [combine forallb fst snd length] in *; try lia.
  - split; constructor.
  - rewrite andb_true_iff, has_In, IH by lia. split; [intros [A B]; constructor; auto|]. intros H. inversion H; auto.
Qed.
Lemma Forall2_map_l {A B C} (P : B -> C -> Prop) (f : A -> B) l : forall l', Forall2 P (map f l) l' <-> Forall2 (fun a => P (f a)) l l'.
Proof.
  induction l as [|a l IH]; intros l'; cbn; [split; intros H; inversion H; constructor|]. split; intros H; inversion H; subst; constructor; auto; now apply IH.
Qed.

Section Search.
Variables (slop : Z) (qs : list dict) (i : nat) (t : Z).
Hypothesis Hi : (i < length qs)%nat.
Let stamps := map (candidates slop t) (others i qs).
Lemma stamps_length : S (length stamps) = length qs.
Proof. unfold stamps, others. rewrite map_length. now apply without_length. Qed.
Lemma product_length v : In v (product stamps) -> length v = length stamps.
Proof. intros H. apply product_In in H. clear Hi. induction H; cbn; auto. Qed.
Lemma search_sound vv : search slop qs i t stamps = Some vv -> choice qs vv /\ within slop vv /\ nth_error vv i = Some t.
Proof.
  unfold search. intros E. apply find_some in E as [Hin E]. apply in_map_iff in Hin as (v & <- & Hv). apply andb_true_iff in E as [E1 E2]. apply product_length in Hv. pose proof stamps_length.
  apply Z.ltb_lt in E1. rewrite all_has_choice in E2 by (rewrite insert_at_length; lia). split; auto. split.
  - apply within_spec; auto. intros Hz. apply (f_equal (@length Z)) in Hz. rewrite insert_at_length in Hz. discriminate.
  - apply insert_at_nth. lia.
Qed.
Lemma in_product ts : choice qs ts -> within slop ts -> nth_error ts i = Some t -> In (firstn i ts ++ skipn (S i) ts) (product stamps).
Proof.
  intros C W E. apply product_In. unfold stamps. apply Forall2_map_l. unfold others. apply without_Forall2.
  assert (Ht : In t ts) by (eapply nth_error_In; eauto). assert (H : forall x, In x ts -> Z.abs (x - t) <= slop). { intros x Hx. pose proof (W x t Hx Ht). pose proof (W t x Ht Hx). lia. }
  clear Hi stamps W E Ht. induction C as [|q x qs0 ts0 Hx C IH]; constructor.
  - apply candidates_In. split; auto. apply H. now left.
  - apply IH. intros y Hy. apply H. now right.
Qed.
Lemma fits_search ts : choice qs ts -> within slop ts -> nth_error ts i = Some t ->
  (zmax ts - zmin ts <? slop) && all_has qs ts = true /\ In ts (map (insert_at i t) (product stamps)).
Proof.
  intros C W E. split.
  - apply andb_true_iff. split; [|apply all_has_choice; auto; now apply choice_length]. apply Z.ltb_lt, within_spec; auto. intros ->. destruct i; discriminate.
  - apply in_map_iff. exists (firstn i ts ++ skipn (S i) ts). split; [now apply insert_at_back|now apply in_product].
Qed.
Lemma search_complete : search slop qs i t stamps = None -> forall ts, choice qs ts -> nth_error ts i = Some t -> ~ within slop ts.
Proof. intros E ts C Et W. destruct (fits_search ts C W Et) as [F Hin]. unfold search in E. rewrite (find_none _ _ E _ Hin) in F. discriminate. Qed.
Lemma empty_complete : existsb (fun l : list Z => match l with [] => true | _ => false end) stamps = true -> forall ts, choice qs ts -> nth_error ts i = Some t -> ~ within slop ts.
Proof.
  intros E ts C Et W. pose proof (in_product ts C W Et) as Hin. apply product_In in Hin. apply existsb_exists in E as (l & Hl & E). destruct l; [|discriminate].
  clear - Hin Hl. induction Hin as [|c x cs xs Hx _ IH]; [destruct Hl|]. destruct Hl as [->|Hl]; auto.
Qed.
Lemma search_closest vv : Forall dictok qs -> search slop qs i t stamps = Some vv -> forall ts, choice qs ts -> within slop ts -> nth_error ts i = Some t -> no_farther t vv ts.
Proof.
  intros F E ts C W Et. destruct (fits_search ts C W Et) as [Hf Hin]. unfold search in E. destruct (find_before _ _ _ _ E Hin Hf) as [->|H]; [apply no_farther_refl|].
  apply before_in_map in H as (a & b & -> & -> & H).
  assert (Hlen : forall l, before_in a b l -> In a l /\ In b l) by (induction l as [|x l IH]; cbn; [intros []|]; intros [[-> Hb]|Hb]; [auto|destruct (IH Hb); auto]).
  destruct (Hlen _ H) as [Ha Hb]. apply no_farther_insert; [now rewrite (product_length _ Ha), (product_length _ Hb)|]. apply (product_order t stamps); auto.
  apply Forall_forall. intros c Hc. unfold stamps in Hc. apply in_map_iff in Hc as (q & <- & Hq). split; [apply candidates_closest|]. eapply Permutation_NoDup; [apply candidates_perm|]. apply NoDup_filter.
  rewrite Forall_forall in F. apply F. unfold others in Hq. rewrite <- (firstn_skipn i qs). apply in_app_or in Hq as [Hq|Hq]; apply in_or_app; auto. right.
  clear - Hq. revert i Hq. induction qs as [|x r IH]; intros [|i] Hq; cbn in *; auto.
Qed.
End Search.

Lemma stamped_step raises slop s i m t s' out ex : approx_stamped (M := M) raises slop s i m t = Ok (s', out, ex) ->
  locked s = false /\ (Forall dictok (queues s) -> step_kind raises (within slop) s i t m (s', out, ex)).
Proof.
  unfold approx_stamped. intros E. destruct (locked s) eqn:El; [discriminate|]. split; auto. intros HF. destruct (nth_error (queues s) i) as [q|] eqn:Eq; [|discriminate].
  destruct (shorten (queue_size s) (put t m q)) as [q'|] eqn:Es.
  2:{ injection E as <- <- <-. constructor. eapply shorten_None; eauto. apply put_ok. rewrite Forall_forall in HF. apply HF. eapply nth_error_In; eauto. }
  cbn [queues with_queues] in E. set (qs1 := upd i q' (queues s)) in *.
  assert (St : stores (queue_size s) i t m (queues s) qs1) by (exists q, q'; auto). destruct (stores_facts _ _ _ _ _ _ St HF) as (F1 & HL & _ & _).
  assert (Hi : (i < length qs1)%nat) by (rewrite HL; apply nth_error_Some; congruence).
  destruct (existsb _ _) eqn:Ee; [injection E as <- <- <-; apply K_store; auto; now apply empty_complete|].
  destruct (search _ _ _ _ _) as [vv|] eqn:Ev; [|injection E as <- <- <-; apply K_store; auto; now apply search_complete].
  destruct (search_sound _ _ _ _ Hi _ Ev) as (C & W & Et). destruct (get_all_spec _ _ C F1) as (ms & Eg & _). rewrite Eg in E. destruct (raises ms) eqn:Er; injection E as <- <- <-.
  - eapply (K_raise _ _ _ _ _ _ qs1); eauto.
  - change (with_queues (with_queues s qs1) (del_all qs1 vv)) with (with_queues s (del_all qs1 vv)). eapply (K_deliver _ _ _ _ _ _ qs1); eauto.
Qed.
Lemma stamped_closest raises slop s i m t s' ms ex : approx_stamped (M := M) raises slop s i m t = Ok (s', [ms], ex) -> Forall dictok (queues s) ->
  exists qs1 vv, stores (queue_size s) i t m (queues s) qs1 /\ choice qs1 vv /\ get_all qs1 vv = Some ms /\
    forall ts, choice qs1 ts -> within slop ts -> nth_error ts i = Some t -> no_farther t vv ts.
Proof.
  unfold approx_stamped. intros E HF. destruct (locked s) eqn:El; [discriminate|]. destruct (nth_error (queues s) i) as [q|] eqn:Eq; [|discriminate].
  destruct (shorten (queue_size s) (put t m q)) as [q'|] eqn:Es; [|discriminate].
  cbn [queues with_queues] in E. set (qs1 := upd i q' (queues s)) in *.
  assert (St : stores (queue_size s) i t m (queues s) qs1) by (exists q, q'; auto). destruct (stores_facts _ _ _ _ _ _ St HF) as (F1 & HL & _ & _).
  assert (Hi : (i < length qs1)%nat) by (rewrite HL; apply nth_error_Some; congruence).
  destruct (existsb _ _) eqn:Ee; [discriminate|]. destruct (search _ _ _ _ _) as [vv|] eqn:Ev; [|discriminate].
  destruct (search_sound _ _ _ _ Hi _ Ev) as (C & W & Et). destruct (get_all qs1 vv) as [ms'|] eqn:Eg; [|discriminate]. exists qs1, vv. split; auto. split; auto. split.
  - destruct (raises ms'); injection E as _ <- _; auto.
  - intros ts. now apply search_closest.
Qed.
Lemma approx_obeys raises slop hl : obeys (M := M) raises (within slop) (add_approx raises slop hl) hl.
Proof.
  intros s i m hd now s' out ex E. cbn in E. unfold approx_add in E. destruct hd as [| |t]; cbn [time_of].
  - destruct hl; [destruct (stamped_step _ _ _ _ _ _ _ _ _ E); auto|]. injection E as <- <- <-. auto 6.
  - injection E as <- <- <-. repeat split; auto.
  - destruct (stamped_step _ _ _ _ _ _ _ _ _ E); auto.
Qed.
End Policies.
