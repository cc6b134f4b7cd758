(** The Python synchronizers: dicts, and one call of add. *)
From Coq Require Import List ZArith Bool Lia Permutation.
From Verif Require Import Base Py_Model PySync_Spec.
Import ListNotations.
Open Scope Z_scope.

Lemma nth_error_upd_eq {A} k (x : A) l y : nth_error l k = Some y -> nth_error (upd k x l) k = Some x.
Proof. revert k; induction l as [|a l IH]; intros [|k]; cbn; try discriminate; auto. Qed.
Lemma nth_error_upd_neq {A} k k' (x : A) l : k <> k' -> nth_error (upd k x l) k' = nth_error l k'.
Proof. revert k k'; induction l as [|a l IH]; intros [|k] [|k'] N; cbn; auto; try congruence. Qed.

Section Proofs.
Context {M : Type}.
Notation dict := (list (Z * M)).

(** ** dicts *)
Definition dictok (q : dict) : Prop := NoDup (keys q).
Lemma has_In t (q : dict) : has t q = true <-> In t (keys q).
Proof. unfold has. rewrite existsb_exists. split; [intros (x & Hx & E); apply Z.eqb_eq in E; now subst|intros H; exists t; split; auto; apply Z.eqb_refl]. Qed.
Lemma key_in t m (q : dict) : In (t, m) q -> In t (keys q).
Proof. intros H. apply (in_map fst) in H. exact H. Qed.
Lemma get_In t m (q : dict) : dictok q -> (get t q = Some m <-> In (t, m) q).
Proof.
  unfold dictok. induction q as [|[k x] q IH]; cbn; intros H; [split; [discriminate|intros []]|]. inversion H as [|? ? H1 H2]; subst. destruct (Z.eqb_spec k t) as [->|N].
  - split; [intros E; injection E as ->; auto|]. intros [E|E]; [now injection E as ->|]. apply key_in in E. contradiction.
  - rewrite (IH H2). split; auto. intros [E|E]; auto. injection E as -> _. contradiction.
Qed.
Lemma get_key t (q : dict) : In t (keys q) -> exists m, get t q = Some m.
Proof. induction q as [|[k x] q IH]; cbn; [intros []|]. destruct (Z.eqb_spec k t); eauto. intros [->|H]; [contradiction|auto]. Qed.
Lemma del_perm t m (q : dict) : dictok q -> In (t, m) q -> Permutation q ((t, m) :: del t q).
Proof.
  unfold dictok. induction q as [|[k x] q IH]; cbn; intros H Hi; [destruct Hi|]. inversion H as [|? ? H1 H2]; subst. destruct (Z.eqb_spec k t) as [->|N].
  - destruct Hi as [E|E]; [injection E as ->; auto|]. apply key_in in E. contradiction.
  - destruct Hi as [E|E]; [injection E as -> _; contradiction|]. etransitivity; [apply perm_skip, IH; auto|apply perm_swap].
Qed.
Lemma del_In t k m (q : dict) : dictok q -> (In (k, m) (del t q) <-> In (k, m) q /\ k <> t).
Proof.
  unfold dictok. induction q as [|[j x] q IH]; cbn; intros H; [tauto|]. inversion H as [|? ? H1 H2]; subst. destruct (Z.eqb_spec j t) as [->|N].
  - split; [intros E; split; auto; intros ->; apply key_in in E; contradiction|]. intros [[E|E] N]; auto. injection E as -> _. contradiction.
  - cbn. rewrite (IH H2). split; [intros [E|[E N']]; auto; injection E as -> ->; auto|]. intros [[E|E] N']; auto.
Qed.
Lemma del_keys t k (q : dict) : dictok q -> (In k (keys (del t q)) <-> In k (keys q) /\ k <> t).
Proof.
  intros H. split.
  - intros Hk. apply in_map_iff in Hk as ((k' & m) & E & Hk). cbn in E. subst k'. apply del_In in Hk as [Hk N]; auto. split; auto. eapply key_in; eauto.
  - intros [Hk N]. apply in_map_iff in Hk as ((k' & m) & E & Hk). cbn in E. subst k'. eapply key_in. apply del_In; eauto.
Qed.
Lemma del_ok t (q : dict) : dictok q -> dictok (del t q).
Proof.
  unfold dictok. induction q as [|[j x] q IH]; cbn; intros H; auto. inversion H as [|? ? H1 H2]; subst. destruct (Z.eqb_spec j t); auto. cbn. constructor; auto.
  intros Hi. apply del_keys in Hi as [Hi _]; auto.
Qed.
Lemma del_length t (q : dict) : In t (keys q) -> S (length (del t q)) = length q.
Proof. induction q as [|[j x] q IH]; cbn; [intros []|]. destruct (Z.eqb_spec j t); auto. intros [->|H]; [contradiction|]. cbn. f_equal. auto. Qed.

Lemma put_In t m k x (q : dict) : dictok q -> (In (k, x) (put t m q) <-> (k = t /\ x = m) \/ (In (k, x) q /\ k <> t)).
Proof.
  unfold dictok. induction q as [|[j y] q IH]; cbn; intros H.
  - split; [intros [E|[]]; injection E as <- <-; auto|]. intros [[-> ->]|[[] _]]; auto.
  - inversion H as [|? ? H1 H2]; subst. destruct (Z.eqb_spec j t) as [->|N]; cbn.
    + split.
      * intros [E|E]; [injection E as <- <-; auto|]. right. split; auto. intros ->. apply key_in in E. contradiction.
      * intros [[-> ->]|[[E|E] N]]; auto. injection E as -> _. contradiction.
    + rewrite (IH H2). split.
      * intros [E|[E|E]]; auto; [injection E as -> ->; auto|]. right. destruct E; auto.
      * intros [E|[[E|E] N']]; auto.
Qed.
Lemma put_keys t m k (q : dict) : dictok q -> (In k (keys (put t m q)) <-> k = t \/ In k (keys q)).
Proof.
  intros H. split.
  - intros Hk. apply in_map_iff in Hk as ((k' & x) & E & Hk). cbn in E. subst k'. apply put_In in Hk as [[-> _]|[Hk _]]; auto. right. eapply key_in; eauto.
  - intros Hk. destruct (Z.eq_dec k t) as [->|N]; [apply (key_in t m); apply put_In; auto|]. destruct Hk as [->|Hk]; [contradiction|].
    apply in_map_iff in Hk as ((k' & x) & E & Hk). cbn in E. subst k'. eapply key_in. apply put_In; eauto.
Qed.
Lemma put_ok t m (q : dict) : dictok q -> dictok (put t m q).
Proof.
  unfold dictok. induction q as [|[j y] q IH]; cbn; intros H; [constructor; auto; constructor|]. inversion H as [|? ? H1 H2]; subst.
  destruct (Z.eqb_spec j t) as [->|N]; cbn; constructor; auto. intros Hi. apply put_keys in Hi as [->|Hi]; auto.
Qed.
Lemma put_perm t m (q : dict) : dictok q -> exists d, Permutation ((t, m) :: q) (put t m q ++ d) /\ (forall x, In x d -> In x q /\ fst x = t) /\ (~ In t (keys q) -> d = []).
Proof.
  unfold dictok. induction q as [|[j y] q IH]; cbn; intros H; [exists []; split; [auto|split; [intros x []|auto]]|]. inversion H as [|? ? H1 H2]; subst.
  destruct (Z.eqb_spec j t) as [->|N].
  - exists [(t, y)]. split; [|split; [intros x [<-|[]]; auto|intros Hn; destruct Hn; auto]].
    cbn. apply perm_skip. rewrite <- Permutation_cons_append. auto.
  - destruct (IH H2) as (d & Hp & Hd & He). exists d. split; [|split; [intros x Hx; destruct (Hd x Hx); auto|auto]]. etransitivity; [apply perm_swap|]. cbn. now apply perm_skip.
Qed.
Lemma put_length t m (q : dict) : length (put t m q) = if has t q then length q else S (length q).
Proof.
  unfold has, keys. induction q as [|[j y] q IH]; cbn; auto. rewrite (Z.eqb_sym t j). destruct (Z.eqb_spec j t) as [->|N]; cbn; auto. rewrite IH. destruct (existsb _ _); auto.
Qed.

(** ** shortening *)
Lemma min_key_spec (q : dict) : forall k, let n := min_key k q in n <= k /\ (forall t, In t (keys q) -> n <= t) /\ (n = k \/ In n (keys q)).
Proof.
  induction q as [|[j y] q IH]; cbn; intros k; [split; [lia|split; [intros t []|auto]]|].
  destruct (IH (Z.min k j)) as (A & B & C). split; [lia|]. split; [intros t [<-|Ht]; [lia|auto]|]. destruct C as [C|C]; auto. destruct (Z.min_spec k j) as [[_ E]|[_ E]]; rewrite E in *; auto.
Qed.
Lemma trim_spec n : 0 <= n -> forall fuel (q : dict), (length q < fuel)%nat -> dictok q ->
  exists q' d, trim fuel n q = Some q' /\ Permutation q (q' ++ d) /\ dictok q' /\ Z.of_nat (length q') <= n /\
    (forall x y, In x d -> In y q' -> fst x < fst y) /\ (d = [] -> q' = q) /\ (d <> [] -> Z.of_nat (length q') = n).
Proof.
  intros Hn. induction fuel as [|fuel IH]; intros q Hf Hq; [lia|]. cbn [trim]. destruct (Z.ltb_spec n (Z.of_nat (length q))) as [H|H].
  2:{ exists q, []. rewrite app_nil_r. repeat split; auto; try congruence. intros x y []. }
  destruct q as [|[k x] r]; [cbn in H; lia|]. destruct (min_key_spec r k) as (A & B & C). set (j := min_key k r) in *.
  assert (Hj : In j (keys ((k, x) :: r))) by (cbn; destruct C as [->|C]; auto). assert (Hle : forall t, In t (keys ((k, x) :: r)) -> j <= t) by (cbn; intros t [<-|Ht]; auto).
  set (q := (k, x) :: r) in *. clearbody q. pose proof (del_length j q Hj) as HL. destruct (IH (del j q)) as (q' & d & E & P & O & L & S1 & S2 & S3); [lia|now apply del_ok|].
  apply in_map_iff in Hj as ((j' & m) & Ej & Hj). cbn in Ej. subst j'. exists q', ((j, m) :: d).
  pose proof (del_perm _ _ _ Hq Hj) as P1. split; [exact E|]. split.
  { rewrite P1, P. apply Permutation_middle. }
  split; auto. split; auto. split; [|split; [discriminate|]].
  - intros a b [<-|Ha] Hb; [|auto]. cbn. assert (Hb' : In b (del j q)) by (eapply Permutation_in; [symmetry; exact P|apply in_or_app; auto]).
    destruct b as [tb mb]. apply del_In in Hb' as [Hb' N]; auto. cbn. specialize (Hle tb (key_in _ _ _ Hb')). lia.
  - intros _. destruct d as [|a d]; [|apply S3; discriminate]. rewrite (S2 eq_refl) in *. lia.
Qed.
Lemma shorten_spec n (q : dict) : 0 <= n -> dictok q ->
  exists q' d, shorten n q = Some q' /\ Permutation q (q' ++ d) /\ dictok q' /\ Z.of_nat (length q') <= n /\
    (forall x y, In x d -> In y q' -> fst x < fst y) /\ (d = [] -> q' = q) /\ (d <> [] -> Z.of_nat (length q') = n).
Proof. intros Hn Hq. apply trim_spec; auto. Qed.
Lemma trim_negative n : n < 0 -> forall fuel (q : dict), trim fuel n q = None.
Proof.
  intros Hn. induction fuel as [|fuel IH]; intros q; auto. cbn [trim]. destruct (Z.ltb_spec n (Z.of_nat (length q))) as [H|H]; [|lia]. destruct q as [|[k x] r]; auto.
Qed.

(** what a queue becomes when a message arrives *)
Lemma store_spec n t m (q : dict) : 0 <= n -> dictok q ->
  exists q' d, shorten n (put t m q) = Some q' /\ Permutation ((t, m) :: q) (q' ++ d) /\ dictok q' /\ Z.of_nat (length q') <= n /\
    (forall x, In x q' -> In x (put t m q)) /\
    (forall x, In x d -> (In x q /\ fst x = t) \/ (Z.of_nat (length q') = n /\ forall y, In y q' -> fst x < fst y)) /\
    (~ In t (keys q) -> Z.of_nat (S (length q)) <= n -> d = []).
Proof.
  intros Hn Hq. destruct (put_perm t m q Hq) as (d1 & P1 & D1 & E1). destruct (shorten_spec n (put t m q) Hn (put_ok _ _ _ Hq)) as (q' & d2 & E & P2 & O & L & S1 & S2 & S3).
  exists q', (d2 ++ d1). split; auto. split; [rewrite P1, P2, app_assoc; auto|]. split; auto. split; auto. split; [|split].
  - intros x Hx. eapply Permutation_in; [symmetry; exact P2|apply in_or_app; auto].
  - intros x Hx. apply in_app_or in Hx as [Hx|Hx]; [|left; auto].
    right. split; [apply S3; intros ->; destruct Hx|intros y Hy; auto].
  - intros Hf Hl. rewrite (E1 Hf), app_nil_r. destruct d2 as [|a d2]; auto. assert (Hz : Z.of_nat (length q') = n) by (apply S3; discriminate).
    apply Permutation_length in P2. rewrite app_length, put_length in P2. cbn [length] in P2.
    destruct (has t q) eqn:Hh; [apply has_In in Hh; contradiction|]. lia.
Qed.
Lemma shorten_Some n (q q' : dict) : shorten n q = Some q' -> 0 <= n.
Proof. intros E. destruct (Z_lt_le_dec n 0); auto. unfold shorten in E. rewrite trim_negative in E; auto. discriminate. Qed.
Lemma shorten_None n (q : dict) : dictok q -> shorten n q = None -> n < 0.
Proof. intros Hq E. destruct (Z_lt_le_dec n 0) as [|H]; auto. destruct (shorten_spec n q H Hq) as (? & ? & E' & _). congruence. Qed.

Lemma option_eq_dec (o : option Z) t : {o = Some t} + {o <> Some t}.
Proof. destruct o as [x|]; [destruct (Z.eq_dec x t); [left|right]; congruence|right; discriminate]. Qed.

(** ** choices *)
Lemma choice_length (qs : list dict) ts : choice qs ts -> length ts = length qs.
Proof. intros H. now induction H; cbn; f_equal. Qed.
Lemma choice_nth (qs : list dict) ts : choice qs ts <-> length ts = length qs /\ forall j q t, nth_error qs j = Some q -> nth_error ts j = Some t -> In t (keys q).
Proof.
  split.
  - intros H. split; [now apply choice_length|]. induction H as [|q0 t0 qs ts H1 H2 IH]; intros [|j] q t Eq Et; cbn in Eq, Et; try discriminate; [injection Eq as <-; injection Et as <-; exact H1|eauto].
  - revert ts. induction qs as [|q qs IH]; intros [|t ts] [HL H]; cbn in HL; try lia; constructor.
    + now apply (H 0%nat q t).
    + apply IH. split; [lia|]. intros j q' t'. apply (H (S j)).
Qed.
Lemma get_all_spec (qs : list dict) : forall ts, choice qs ts -> Forall dictok qs ->
  exists ms, get_all qs ts = Some ms /\ length ms = length qs /\
    forall j q t, nth_error qs j = Some q -> nth_error ts j = Some t -> exists m, nth_error ms j = Some m /\ In (t, m) q.
Proof.
  induction qs as [|q qs IH]; intros ts H F; inversion H as [|? t ? ts' Ht H']; subst.
  - exists []. repeat split. intros [|j]; discriminate.
  - inversion F as [|? ? F1 F2]; subst. destruct (IH _ H' F2) as (ms & E & L & N). destruct (get_key t q Ht) as (m & Em). exists (m :: ms). cbn. rewrite Em, E. split; auto. split; [now f_equal|].
    intros [|j] q' t' Eq Et; cbn in *; [|eauto]. injection Eq as <-. injection Et as <-. exists m. split; auto. now apply get_In.
Qed.
Lemma del_all_nth (qs : list dict) : forall ts j q t, nth_error qs j = Some q -> nth_error ts j = Some t -> nth_error (del_all qs ts) j = Some (del t q).
Proof. induction qs as [|q0 qs IH]; intros [|t0 ts] [|j] q t; cbn; try discriminate; [congruence|apply IH]. Qed.
Lemma del_all_length (qs : list dict) : forall ts, length (del_all qs ts) = length qs.
Proof. induction qs as [|q0 qs IH]; intros [|t0 ts]; cbn; auto. Qed.
Lemma del_all_ok (qs : list dict) : forall ts, Forall dictok qs -> Forall dictok (del_all qs ts).
Proof. induction qs as [|q0 qs IH]; intros [|t0 ts] F; cbn; auto. inversion F; subst. constructor; auto. now apply del_ok. Qed.
Lemma map_del_all t (qs : list dict) : map (del t) qs = del_all qs (map (fun _ => t) qs).
Proof. induction qs; cbn; f_equal; auto. Qed.

(** ** one call *)
Definition stores (n : Z) (i : nat) (t : Z) (m : M) (qs qs1 : list dict) : Prop :=
  exists q q', nth_error qs i = Some q /\ shorten n (put t m q) = Some q' /\ qs1 = upd i q' qs.

Section Generic.
Variable raises : list M -> bool.
Variable good : list Z -> Prop.
Inductive step_kind (s : pysync M) (i : nat) (t : Z) (m : M) : pysync M * list (list M) * bool -> Prop :=
| K_negative : queue_size s < 0 -> step_kind s i t m (wedged (with_queues s (upd i [] (queues s))), [], true)
| K_store qs1 : stores (queue_size s) i t m (queues s) qs1 -> (forall ts, choice qs1 ts -> nth_error ts i = Some t -> ~ good ts) ->
    step_kind s i t m (with_queues s qs1, [], false)
| K_deliver qs1 vv ms : stores (queue_size s) i t m (queues s) qs1 -> choice qs1 vv -> good vv -> nth_error vv i = Some t -> get_all qs1 vv = Some ms -> raises ms = false ->
    step_kind s i t m (with_queues s (del_all qs1 vv), [ms], false)
| K_raise qs1 vv ms : stores (queue_size s) i t m (queues s) qs1 -> choice qs1 vv -> good vv -> nth_error vv i = Some t -> get_all qs1 vv = Some ms -> raises ms = true ->
    step_kind s i t m (wedged (with_queues s qs1), [ms], true).
(** nothing that could be delivered is waiting *)
Definition calm (qs : list dict) : Prop := forall ts, choice qs ts -> ts <> [] -> ~ good ts.

Lemma stores_facts n i t m qs qs1 : stores n i t m qs qs1 -> Forall dictok qs ->
  Forall dictok qs1 /\ length qs1 = length qs /\ 0 <= n /\
  exists q q' d, nth_error qs i = Some q /\ nth_error qs1 i = Some q' /\ (forall j, j <> i -> nth_error qs1 j = nth_error qs j) /\
    Permutation ((t, m) :: q) (q' ++ d) /\ Z.of_nat (length q') <= n /\ (forall x, In x q' -> In x (put t m q)) /\
    (forall x, In x d -> (In x q /\ fst x = t) \/ (Z.of_nat (length q') = n /\ forall y, In y q' -> fst x < fst y)) /\
    (~ In t (keys q) -> Z.of_nat (S (length q)) <= n -> d = []).
Proof.
  intros (q & q' & Eq & Es & ->) F. assert (Hq : dictok q) by (rewrite Forall_forall in F; apply F; eapply nth_error_In; eauto). pose proof (shorten_Some _ _ _ Es) as Hn.
  destruct (store_spec n t m q Hn Hq) as (q2 & d & E2 & P & O & L & S1 & S2 & S3). rewrite Es in E2. injection E2 as <-.
  assert (Hi : (i < length qs)%nat) by (apply nth_error_Some; congruence). split; [|split; [apply upd_length|split; auto]].
  - apply Forall_forall. intros x Hx. apply In_nth_error in Hx as (j & Hj). destruct (Nat.eq_dec j i) as [->|N].
    + rewrite (nth_error_upd_eq _ _ _ _ Eq) in Hj. congruence.
    + rewrite nth_error_upd_neq in Hj by auto. rewrite Forall_forall in F. apply F. eapply nth_error_In; eauto.
  - exists q, q', d. split; auto. split; [eapply nth_error_upd_eq; eauto|]. split; [intros j Hj; apply nth_error_upd_neq; auto|]. auto 10.
Qed.

(** a choice after the message is stored that does not use it was there before *)
Lemma old_choice n i t m qs qs1 ts : stores n i t m qs qs1 -> Forall dictok qs -> choice qs1 ts -> nth_error ts i <> Some t -> choice qs ts.
Proof.
  intros St F C N. destruct (stores_facts _ _ _ _ _ _ St F) as (_ & HL & _ & q & q' & d & Eq & Eq' & Ho & _ & _ & Hin & _). apply choice_nth in C as [CL C]. apply choice_nth. split; [congruence|].
  intros j q0 t0 E0 Et. destruct (Nat.eq_dec j i) as [->|Nj].
  - rewrite Eq in E0. injection E0 as <-. pose proof (C i q' t0 Eq' Et) as Hk. apply in_map_iff in Hk as ((k & x) & E & Hk). cbn in E. subst k. apply Hin in Hk.
    assert (Hq : dictok q) by (rewrite Forall_forall in F; apply F; eapply nth_error_In; eauto). apply put_In in Hk as [[-> _]|[Hk _]]; auto; [contradiction|]. eapply key_in; eauto.
  - apply (C j q0 t0); auto. now rewrite Ho.
Qed.
Lemma calm_store n i t m qs qs1 : stores n i t m qs qs1 -> Forall dictok qs -> calm qs -> (forall ts, choice qs1 ts -> nth_error ts i = Some t -> ~ good ts) -> calm qs1.
Proof.
  intros St F HC H ts C N G. destruct (option_eq_dec (nth_error ts i) t) as [E|E]; [now apply (H ts)|]. apply (HC ts); auto. eapply old_choice; eauto.
Qed.
Lemma calm_deliver n i t m qs qs1 vv : stores n i t m qs qs1 -> Forall dictok qs -> calm qs -> choice qs1 vv -> nth_error vv i = Some t -> calm (del_all qs1 vv).
Proof.
  intros St F HC C Ev ts Ct N G. destruct (stores_facts _ _ _ _ _ _ St F) as (F1 & HL & _ & q & q' & d & Eq & Eq' & _). apply (HC ts); auto. apply choice_nth in Ct as [CL Ct].
  assert (C1 : choice qs1 ts).
  { apply choice_nth. split; [now rewrite CL, del_all_length|]. intros j q0 t0 E0 Et. destruct (nth_error vv j) as [v|] eqn:Evj.
    - specialize (Ct j (del v q0) t0 (del_all_nth _ _ _ _ _ E0 Evj) Et). apply del_keys in Ct; [tauto|]. rewrite Forall_forall in F1. apply F1. eapply nth_error_In; eauto.
    - apply nth_error_None in Evj. rewrite (choice_length _ _ C) in Evj. apply nth_error_None in Evj. congruence. }
  apply (old_choice _ _ _ _ _ _ _ St F C1). intros Et. specialize (Ct i (del t q') t (del_all_nth _ _ _ _ _ Eq' Ev) Et).
  apply del_keys in Ct; [tauto|]. rewrite Forall_forall in F1. apply F1. eapply nth_error_In; eauto.
Qed.
End Generic.
End Proofs.
