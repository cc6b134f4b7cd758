(** Properties of the Python Cache, src/message_filters/__init__.py:93-190. *)
From Coq Require Import List ZArith Bool Lia Sorted.
From Verif Require Import Base Py_Model.
Import ListNotations.
Open Scope Z_scope.

Section Props.
Context {M : Type}.

(** ** Specification *)
(** one call of add: the message, its header, the clock *)
Definition call : Type := M * header * Z.
(** the messages to be stored, with their times, in order of arrival *)
Fixpoint accepted (hl : bool) (h : list call) : list (Z * M) :=
  match h with
  | [] => []
  | (m, Stamp t, _) :: r => (t, m) :: accepted hl r
  | (m, NoHeader, now) :: r => if hl then (now, m) :: accepted hl r else accepted hl r
  | (_, BadStamp, _) :: r => accepted hl r
  end.
Definition lastn {A} (n : nat) (l : list A) : list A := skipn (length l - n) l.
(** times in order of arrival *)
Definition in_order (l : list (Z * M)) : Prop := StronglySorted (fun x y => fst x <= fst y) l.
Definition strictly_in_order (l : list (Z * M)) : Prop := StronglySorted (fun x y => fst x < fst y) l.

Fixpoint run (c : pycache M) (h : list call) : pycache M * list M :=
  match h with
  | [] => (c, [])
  | (m, hd, now) :: r => let '(c1, out, _) := pycache_add c m hd now in let '(c2, outs) := run c1 r in (c2, out ++ outs)
  end.

(** ** The contents *)
Lemma lastn_snoc {A} n (l : list A) x : (if Z.of_nat n <? Z.of_nat (length (lastn n l ++ [x])) then tl (lastn n l ++ [x]) else lastn n l ++ [x]) = lastn n (l ++ [x]).
Proof.
  unfold lastn. rewrite !app_length, skipn_length. cbn [length].
  destruct (Nat.leb_spec (length l) n) as [H|H].
  - replace (length l - n)%nat with 0%nat by lia. cbn [skipn]. destruct (Nat.eq_dec (length l) n) as [E|N].
    + destruct (Z.ltb_spec (Z.of_nat n) (Z.of_nat (length l - 0 + 1))); [|lia]. replace (length l + 1 - n)%nat with 1%nat by lia. destruct l; reflexivity.
    + destruct (Z.ltb_spec (Z.of_nat n) (Z.of_nat (length l - 0 + 1))); [lia|]. replace (length l + 1 - n)%nat with 0%nat by lia. reflexivity.
  - destruct (Z.ltb_spec (Z.of_nat n) (Z.of_nat (length l - (length l - n) + 1))); [|lia].
    replace (length l + 1 - n)%nat with (S (length l - n)) by lia. set (k := (length l - n)%nat). assert (Hk : (k < length l)%nat \/ n = 0%nat /\ k = length l) by (unfold k; lia).
    destruct Hk as [Hk|[-> Hk]].
    + clearbody k. clear H H0. revert l Hk. induction k as [|k IH]; intros [|a l] Hk; cbn in *; try lia; auto. apply IH. lia.
    + rewrite Hk. clear. induction l; cbn; auto.
Qed.
Lemma run_contents h : forall c acc, items c = lastn (Z.to_nat (cache_size c)) acc ->
  let c' := fst (run c h) in items c' = lastn (Z.to_nat (cache_size c)) (acc ++ accepted (headerless c) h) /\ cache_size c' = cache_size c.
Proof.
  induction h as [|[[m hd] now] h IH]; intros c acc Hc; cbn [run accepted]; [cbn; now rewrite app_nil_r|].
  assert (Hs : forall t, items (pycache_store c t m) = lastn (Z.to_nat (cache_size c)) (acc ++ [(t, m)])).
  { intros t. unfold pycache_store. cbn [items]. rewrite Hc. destruct (Z.leb_spec 0 (cache_size c)) as [H|H].
    - rewrite <- lastn_snoc. rewrite Z2Nat.id by lia. reflexivity.
    - destruct (Z.ltb_spec (cache_size c) (Z.of_nat (length (lastn (Z.to_nat (cache_size c)) acc ++ [(t, m)])))); [|lia].
      replace (Z.to_nat (cache_size c)) with 0%nat by lia. unfold lastn. rewrite !Nat.sub_0_r, !skipn_all. reflexivity. }
  destruct hd as [| |t]; cbn [pycache_add].
  - destruct (headerless c) eqn:Hh.
    + specialize (IH (pycache_store c now m) (acc ++ [(now, m)]) (Hs now)). cbn [cache_size headerless pycache_store] in IH. rewrite Hh, <- app_assoc in IH.
      destruct (run (pycache_store c now m) h) as [c2 outs] eqn:E. exact IH.
    + specialize (IH c acc Hc). rewrite Hh in IH. destruct (run c h). exact IH.
  - specialize (IH c acc Hc). destruct (run c h). exact IH.
  - specialize (IH (pycache_store c t m) (acc ++ [(t, m)]) (Hs t)). cbn [cache_size headerless pycache_store] in IH. rewrite <- app_assoc in IH.
    destruct (run (pycache_store c t m) h). exact IH.
Qed.

(** The cache holds exactly the last [n] messages accepted, in order of arrival. *)
Theorem C57_contents n hl h : items (fst (run (pycache_init n hl) h)) = lastn (Z.to_nat n) (accepted hl h).
Proof. apply (run_contents h (pycache_init n hl) []). cbn. unfold lastn. destruct (Z.to_nat n); reflexivity. Qed.
(** Every accepted message is passed on once, in order of arrival. *)
Theorem C57_forwarding n hl h : snd (run (pycache_init n hl) h) = map snd (accepted hl h).
Proof.
  assert (H : forall c, headerless c = hl -> snd (run c h) = map snd (accepted hl h)); [|now apply H].
  induction h as [|[[m hd] now] h IH]; intros c Hc; cbn [run accepted]; auto. destruct hd as [| |t]; cbn [pycache_add].
  - rewrite Hc. destruct hl; [specialize (IH (pycache_store c now m) Hc)|specialize (IH c Hc)]; destruct (run _ h); cbn in *; congruence.
  - specialize (IH c Hc). destruct (run c h). exact IH.
  - specialize (IH (pycache_store c t m) Hc). destruct (run _ h). cbn in *. congruence.
Qed.

(** ** The queries *)
Section Queries.
Variables (n : Z) (hl : bool) (h : list call).
Let c := fst (run (pycache_init n hl) h).
Let held := lastn (Z.to_nat n) (accepted hl h).

Theorem C57_interval a b : a <= b ->
  exists r, pycache_interval c a b = Ok (map snd r) /\ r = filter (fun x => (a <=? fst x) && (fst x <=? b)) held.
Proof. intros H. unfold pycache_interval, c, held. rewrite C57_contents. destruct (Z.leb_spec a b); [|lia]. eauto. Qed.
Theorem C57_interval_members a b : a <= b ->
  exists r, pycache_interval c a b = Ok (map snd r) /\ (forall x, In x r <-> In x held /\ a <= fst x <= b).
Proof.
  intros H. destruct (C57_interval a b H) as (r & E & ->). exists (filter (fun x => (a <=? fst x) && (fst x <=? b)) held). split; auto.
  intros x. rewrite filter_In, andb_true_iff, !Z.leb_le. reflexivity.
Qed.

(** whatever the order: the first one to arrive not before the time, the last one not after *)
Theorem C57_after_arrival t : match pycache_after c t with
  | Some m => exists l1 k l2, held = l1 ++ (k, m) :: l2 /\ t <= k /\ forall x, In x l1 -> fst x < t
  | None => forall x, In x held -> fst x < t
  end.
Proof.
  unfold pycache_after, c. rewrite C57_contents. fold held. induction held as [|[k m] l IH]; cbn; [intros x []|]. destruct (Z.leb_spec t k) as [H|H]; cbn.
  - exists [], k, l. split; auto. split; auto. intros x [].
  - destruct (map snd (filter _ l)) as [|m' r].
    + intros x [<-|Hx]; auto.
    + destruct IH as (l1 & k' & l2 & -> & H1 & H2). exists ((k, m) :: l1), k', l2. split; auto. split; auto. intros x [<-|Hx]; auto.
Qed.
Lemma filter_rev {A} (p : A -> bool) l : filter p (rev l) = rev (filter p l).
Proof. induction l as [|a l IH]; cbn; auto. rewrite filter_app, IH. cbn. destruct (p a); cbn; [|rewrite app_nil_r]; auto. Qed.
Theorem C57_before_arrival t : match pycache_before c t with
  | Some m => exists l1 k l2, held = l1 ++ (k, m) :: l2 /\ k <= t /\ forall x, In x l2 -> t < fst x
  | None => forall x, In x held -> t < fst x
  end.
Proof.
  unfold pycache_before, c. rewrite C57_contents. fold held. rewrite <- map_rev, <- filter_rev.
  assert (G : forall l, match map snd (filter (fun x : Z * M => fst x <=? t) l) with
    | [] => forall x, In x (rev l) -> t < fst x
    | m :: _ => exists l1 k l2, rev l = l1 ++ (k, m) :: l2 /\ k <= t /\ forall x, In x l2 -> t < fst x end); [|specialize (G (rev held)); rewrite rev_involutive in G; destruct (map snd _); exact G].
  clear. induction l as [|[k m] l IH]; cbn; [intros x []|]. destruct (Z.leb_spec k t) as [H|H]; cbn.
  - exists (rev l), k, []. split; auto. split; auto. intros x [].
  - destruct (map snd (filter _ l)) as [|m' r].
    + intros x Hx. apply in_app_or in Hx as [Hx|[<-|[]]]; auto.
    + destruct IH as (l1 & k' & l2 & -> & H1 & H2). exists l1, k', (l2 ++ [(k, m)]). rewrite <- app_assoc. split; auto. split; auto.
      intros x Hx. apply in_app_or in Hx as [Hx|[<-|[]]]; auto.
Qed.

(** If messages arrive in order of their times: the oldest one not before, the newest one not
    after the time asked for. *)
Lemma sorted_app (l1 l2 : list (Z * M)) (R : Z * M -> Z * M -> Prop) : StronglySorted R (l1 ++ l2) ->
  StronglySorted R l1 /\ StronglySorted R l2 /\ forall x y, In x l1 -> In y l2 -> R x y.
Proof.
  induction l1 as [|a l1 IH]; cbn; intros H; [repeat split; auto; [constructor|intros x y []]|]. inversion H as [|? ? H1 H2]; subst. destruct (IH H1) as (A & B & C).
  rewrite Forall_forall in H2. repeat split; auto; [constructor; auto; apply Forall_forall; intros; apply H2, in_or_app; auto|].
  intros x y [<-|Hx] Hy; [apply H2, in_or_app; auto|auto].
Qed.
Lemma sorted_lastn k (l : list (Z * M)) R : StronglySorted R l -> StronglySorted R (lastn k l).
Proof. intros H. unfold lastn. rewrite <- (firstn_skipn (length l - k) l) in H. now apply sorted_app in H. Qed.
Theorem C57_after_partial t m : in_order (accepted hl h) -> pycache_after c t = Some m ->
  exists k, In (k, m) held /\ t <= k /\ forall x, In x held -> t <= fst x -> k <= fst x.
Proof.
  intros Ho E. pose proof (C57_after_arrival t) as H. rewrite E in H. destruct H as (l1 & k & l2 & Hh & H1 & H2). exists k. rewrite Hh.
  split; [apply in_or_app; right; left; auto|]. split; auto. intros x Hx Ht. apply in_app_or in Hx as [Hx|[<-|Hx]]; [apply H2 in Hx; lia|cbn; lia|].
  apply (sorted_lastn (Z.to_nat n)) in Ho. fold held in Ho. rewrite Hh in Ho. apply sorted_app in Ho as (_ & Ho & _). inversion Ho as [|? ? _ Hf]; subst. rewrite Forall_forall in Hf. now apply Hf in Hx.
Qed.
Theorem C57_before_partial t m : in_order (accepted hl h) -> pycache_before c t = Some m ->
  exists k, In (k, m) held /\ k <= t /\ forall x, In x held -> fst x <= t -> fst x <= k.
Proof.
  intros Ho E. pose proof (C57_before_arrival t) as H. rewrite E in H. destruct H as (l1 & k & l2 & Hh & H1 & H2). exists k. rewrite Hh.
  split; [apply in_or_app; right; left; auto|]. split; auto. intros x Hx Ht. apply in_app_or in Hx as [Hx|[<-|Hx]]; [|cbn; lia|apply H2 in Hx; lia].
  apply (sorted_lastn (Z.to_nat n)) in Ho. fold held in Ho. rewrite Hh in Ho. apply sorted_app in Ho as (_ & _ & Ho). apply (Ho x (k, m)); auto. left; auto.
Qed.
(** getOldestTime, getLastestTime: the ends of the cache; extreme times if in order *)
Theorem C57_end_times_partial : in_order (accepted hl h) ->
  (forall t, pycache_oldest c = Some t -> (exists m, In (t, m) held) /\ forall x, In x held -> t <= fst x) /\
  (forall t, pycache_latest c = Some t -> (exists m, In (t, m) held) /\ forall x, In x held -> fst x <= t) /\
  (pycache_oldest c = None <-> held = []) /\ (pycache_latest c = None <-> held = []).
Proof.
  intros Ho. apply (sorted_lastn (Z.to_nat n)) in Ho. fold held in Ho. unfold pycache_oldest, pycache_latest, c. rewrite C57_contents. fold held. split; [|split; [|split]].
  - destruct held as [|[k m] l]; [discriminate|]. intros t E. injection E as <-. split; [exists m; left; auto|]. intros x [<-|Hx]; [cbn; lia|].
    inversion Ho as [|? ? _ Hf]; subst. rewrite Forall_forall in Hf. now apply Hf in Hx.
  - destruct (rev held) as [|[k m] l] eqn:E; [discriminate|]. intros t Et. injection Et as <-.
    assert (Hh : held = rev l ++ [(k, m)]) by (rewrite <- (rev_involutive held), E; reflexivity). rewrite Hh in *. split; [exists m; apply in_or_app; right; left; auto|].
    intros x Hx. apply in_app_or in Hx as [Hx|[<-|[]]]; [|cbn; lia]. apply sorted_app in Ho as (_ & _ & Ho). apply (Ho x (k, m)); auto. left; auto.
  - destruct held; split; auto; discriminate.
  - destruct held as [|x l] using rev_ind; [split; auto|]. rewrite rev_app_distr. cbn. split; [discriminate|]. intros E. destruct l; discriminate.
Qed.
(** getLast: the message that arrived last, if times strictly increase *)
Theorem C57_last_partial : strictly_in_order (accepted hl h) -> pycache_last c = match rev held with [] => None | x :: _ => Some (snd x) end.
Proof.
  intros Ho. apply (sorted_lastn (Z.to_nat n)) in Ho. fold held in Ho. unfold pycache_last, pycache_latest, pycache_after, c. rewrite C57_contents. fold held.
  destruct (rev held) as [|[k m] l] eqn:E; auto. cbn [fst snd]. assert (Hh : held = rev l ++ [(k, m)]) by (rewrite <- (rev_involutive held), E; reflexivity). rewrite Hh in *.
  apply sorted_app in Ho as (_ & _ & Ho). rewrite filter_app. replace (filter (fun x : Z * M => k <=? fst x) (rev l)) with (@nil (Z * M)).
  - cbn. destruct (Z.leb_spec k k); [reflexivity|lia].
  - symmetry. assert (Hr : forall x, In x (rev l) -> fst x < k) by (intros x Hx; apply (Ho x (k, m)); auto; left; auto). clear - Hr. induction (rev l) as [|x r IH]; auto. cbn.
    destruct (Z.leb_spec k (fst x)) as [H|H]; [specialize (Hr x (or_introl eq_refl)); lia|]. apply IH. intros; apply Hr. right; auto.
Qed.
End Queries.
End Props.

(** ** Where the code falls short: messages out of order, equal times *)
Definition c57a : list (@call nat) := [(1%nat, Stamp 30, 0); (2%nat, Stamp 10, 0); (3%nat, Stamp 20, 0)].
Theorem C57_out_of_order_refuted : let c := fst (run (pycache_init 5 false) c57a) in
  pycache_after c 15 = Some 1%nat (* time 30, though 20 is held *) /\ pycache_before c 25 = Some 3%nat /\ pycache_before c 35 = Some 3%nat (* time 20, though 30 is held *) /\
  pycache_latest c = Some 20 /\ pycache_oldest c = Some 30 /\ pycache_last c = Some 1%nat.
Proof. cbn. repeat split. Qed.
(** getLast with two messages of the same time gives the first *)
Theorem C57_last_refuted : let h := [(1%nat, Stamp 10, 0); (2%nat, Stamp 10, 0)] in
  in_order (accepted false h) /\ pycache_last (fst (run (pycache_init 5 false) h)) = Some 1%nat.
Proof. cbn. split; auto. repeat constructor. cbn. lia. Qed.

(** ** Instances *)
Definition c57b : list (@call nat) := [(1%nat, Stamp 10, 0); (2%nat, NoHeader, 15); (3%nat, BadStamp, 0); (4%nat, Stamp 20, 0); (5%nat, Stamp 30, 0)].
Example c57b_run : strictly_in_order (accepted true c57b) /\ items (fst (run (pycache_init 3 true) c57b)) = [(15, 2%nat); (20, 4%nat); (30, 5%nat)] /\
  accepted false c57b = [(10, 1%nat); (20, 4%nat); (30, 5%nat)] /\ pycache_after (fst (run (pycache_init 3 true) c57b)) 16 = Some 4%nat.
Proof. split; [repeat constructor; cbn; lia|]. repeat split. Qed.

Print Assumptions C57_contents.
Print Assumptions C57_forwarding.
Print Assumptions C57_interval_members.
Print Assumptions C57_after_arrival.
Print Assumptions C57_before_arrival.
Print Assumptions C57_after_partial.
Print Assumptions C57_before_partial.
Print Assumptions C57_end_times_partial.
Print Assumptions C57_last_partial.
