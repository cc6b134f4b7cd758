(** How programs change the wiring: invariant of reachable states. *)
From Coq Require Import List Arith Lia Bool.
From Verif Require Import Base Net_Model Net_Spec Net_Flow.
Import ListNotations.

Section Wiring.
Context {S M U : Type}.
Notation target := (target U).
Notation node := (node S M U).
Notation state := (state S M U).
Notation obs := (obs M U).
Notation op := (op S M U).
Notation class := (class S M).

(** ** views of a state *)
Definition clsof (s : state) n : option class := option_map (@cls S M U) (nth_error s n).
Definition aliveof (s : state) n : bool := match nth_error s n with Some x => alive x | None => false end.
Definition internalof (s : state) n : bool := match nth_error s n with Some x => internal x | None => false end.
Definition insof (s : state) n i : option (nat * nat) := match nth_error s n with Some x => nth i (ins x) None | None => None end.
Definition lastof (s : state) n : option (nat * nat) := match nth_error s n with Some x => last x | None => None end.
Definition filtersof (s : state) n : list (nat * nat) := match nth_error s n with Some x => filters x | None => [] end.
Definition nextof (s : state) n : nat := match nth_error s n with Some x => next x | None => 0 end.
Definition cbsof (s : state) n : list (nat * target) := match nth_error s n with Some x => cbs x | None => [] end.
Definition occ (s : state) g k t : Prop := In (k, t) (cbsof s g).

Lemma live_view (s : state) n x : live s n = Ok x -> nth_error s n = Some x /\ clsof s n = Some (cls x) /\ aliveof s n = true /\
  internalof s n = internal x /\ lastof s n = last x /\ filtersof s n = filters x /\ nextof s n = next x /\ cbsof s n = cbs x.
Proof.
  intros H. apply live_nth in H as [H Ha]. unfold clsof, aliveof, internalof, lastof, filtersof, nextof, cbsof. rewrite H. cbn. auto 10.
Qed.

Lemma nth_upd_case {A} (s : list A) f x0 x g : nth_error s f = Some x0 ->
  nth_error (upd f x s) g = if Nat.eqb g f then Some x else nth_error s g.
Proof.
  intros H. destruct (Nat.eqb_spec g f) as [->|Hne].
  - now apply nth_error_upd_eq with (y := x0).
  - apply nth_error_upd_neq. congruence.
Qed.

(** structure kept by connections *)
Record stable (s s' : state) : Prop := mkStable {
  sb_len : length s' = length s;
  sb_cls : forall n, clsof s' n = clsof s n;
  sb_alive : forall n, aliveof s' n = aliveof s n;
  sb_int : forall n, internalof s' n = internalof s n;
  sb_filters : forall n, filtersof s' n = filtersof s n
}.
Lemma stable_refl s : stable s s. Proof. split; auto. Qed.
Lemma stable_trans a b c : stable a b -> stable b c -> stable a c.
Proof. intros [A1 A2 A3 A4 A5] [B1 B2 B3 B4 B5]. split; intros; congruence. Qed.

Ltac view H := unfold clsof, aliveof, internalof, insof, lastof, filtersof, nextof, cbsof, occ in *;
  intros; rewrite ?(nth_upd_case _ _ _ _ _ H).

(** registering *)
Record registered (s s' : state) (f k : nat) (t : target) : Prop := mkReg {
  rg_stable : stable s s';
  rg_k : k = nextof s f;
  rg_alive : aliveof s f = true;
  rg_cbs : forall g, cbsof s' g = if Nat.eqb g f then cbsof s f ++ [(k, t)] else cbsof s g;
  rg_next : forall g, nextof s' g = if Nat.eqb g f then Datatypes.S k else nextof s g;
  rg_ins : forall n i, insof s' n i = insof s n i;
  rg_insl : forall n x', nth_error s' n = Some x' -> exists x, nth_error s n = Some x /\ ins x' = ins x;
  rg_last : forall n, lastof s' n = lastof s n
}.
Lemma register_eff s f t s' k : register s f t = Ok (s', k) -> registered s s' f k t.
Proof.
  unfold register. destruct (live s f) as [x|] eqn:Hl; [|discriminate]. cbn. intros H. injection H as <- <-.
  destruct (live_view _ _ _ Hl) as (Hn & _ & Ha & _ & _ & _ & Hnx & Hcb).
  split; [split|..]; try (now view Hn; destruct (Nat.eqb_spec n f) as [->|]; [rewrite Hn|]; reflexivity).
  - apply upd_length.
  - auto.
  - exact Ha.
  - view Hn. destruct (Nat.eqb_spec g f) as [->|]; [rewrite Hn|]; reflexivity.
  - view Hn. destruct (Nat.eqb_spec g f) as [->|]; [|]; reflexivity.
  - intros n y. rewrite (nth_upd_case _ _ _ _ _ Hn). destruct (Nat.eqb_spec n f) as [->|]; [|eauto]. intros H. injection H as <-. exists x. auto.
Qed.

(** disconnecting *)
Record removed (s s' : state) (f k : nat) : Prop := mkRem {
  rm_stable : stable s s';
  rm_cbs : forall g, cbsof s' g = if Nat.eqb g f then erase k (cbsof s f) else cbsof s g;
  rm_next : forall g, nextof s' g = nextof s g;
  rm_ins : forall n i, insof s' n i = insof s n i;
  rm_insl : forall n x', nth_error s' n = Some x' -> exists x, nth_error s n = Some x /\ ins x' = ins x;
  rm_last : forall n, lastof s' n = lastof s n
}.
Lemma disconnect_eff s f k s' : disconnect s (Some (f, k)) = Ok s' -> removed s s' f k.
Proof.
  cbn. destruct (live s f) as [x|] eqn:Hl; [|discriminate]. cbn. intros H. injection H as <-.
  destruct (live_view _ _ _ Hl) as (Hn & _ & Ha & _ & _ & _ & Hnx & Hcb).
  split; [split|..]; try (now view Hn; destruct (Nat.eqb_spec n f) as [->|]; [rewrite Hn|]; reflexivity).
  - apply upd_length.
  - view Hn. destruct (Nat.eqb_spec g f) as [->|]; [rewrite Hn|]; reflexivity.
  - view Hn. destruct (Nat.eqb_spec g f) as [->|]; [rewrite Hn|]; reflexivity.
  - intros n y. rewrite (nth_upd_case _ _ _ _ _ Hn). destruct (Nat.eqb_spec n f) as [->|]; [|eauto]. intros H. injection H as <-. exists x. auto.
Qed.

Lemma erase_in k l k' (t : target) : NoDup (map fst l) -> In (k', t) (erase k l) <-> In (k', t) l /\ k' <> k.
Proof.
  induction l as [|[a b] l IH]; cbn; intros HN; [tauto|]. inversion HN as [|? ? Hni HN']; subst.
  destruct (Nat.eqb_spec a k) as [->|Hne].
  - split.
    + intros H. split; auto. intros ->. apply Hni. now apply (in_map fst) in H.
    + intros [[H|H] Hk]; auto. injection H as -> ->. congruence.
  - cbn. rewrite (IH HN'). split.
    + intros [H|[H Hk]]; [|auto]. injection H as -> ->. split; auto.
    + intros [[H|H] Hk]; auto.
Qed.
Lemma erase_sub k l x : In x (erase k l) -> In x (l : list (nat * target)).
Proof. induction l as [|y l IH]; cbn; auto. destruct (Nat.eqb (fst y) k); cbn; intuition. Qed.
Lemma erase_nodup k (l : list (nat * target)) : NoDup (map fst l) -> NoDup (map fst (erase k l)).
Proof.
  induction l as [|[a b] l IH]; cbn; intros HN; auto. inversion HN; subst. destruct (Nat.eqb a k); auto. cbn. constructor; auto.
  intros H. apply in_map_iff in H as (x & <- & Hx). apply erase_sub in Hx. apply H1. now apply (in_map fst).
Qed.

(** ** the invariant *)
Record Inv (h : list op) (s : state) : Prop := mkInv {
  i_nodup : forall g, NoDup (map fst (cbsof s g));
  i_next : forall g k t, occ s g k t -> k < nextof s g;
  i_dead : forall g k t, occ s g k t -> aliveof s g = true;
  i_insl : forall n x, nth_error s n = Some x -> length (ins x) = arity (cls x);
  i_held : forall g k n i, occ s g k (ToInput n i) -> exists c, clsof s n = Some c /\ i < arity c /\
    (replaces c = true \/ times (connects n) h <= 1 -> insof s n i = Some (g, k)) /\
    (internalof s n = false -> 1 <= times (connects n) h);
  i_owner : forall n i g k, insof s n i = Some (g, k) -> k < nextof s g /\ forall t, occ s g k t -> t = ToInput n i;
  i_last : forall c p k, lastof s c = Some (p, k) -> k < nextof s p /\ forall t, occ s p k t -> t = ToOutput c;
  i_out : forall g k c, occ s g k (ToOutput c) -> clsof s c = Some Chain /\ lastof s c = Some (g, k)
}.

Lemma times_snoc p (h : list op) o : times p (h ++ [o]) = times p h + if p o then 1 else 0.
Proof. unfold times. rewrite filter_app, app_length. cbn. destruct (p o); reflexivity. Qed.
Lemma inv_snoc h o s : Inv h s -> Inv (h ++ [o]) s.
Proof.
  intros [A1 A2 A3 A4 A5 A6 A7 A8]. split; auto. intros g k n i Ho. destruct (A5 g k n i Ho) as (c & B1 & B2 & B3 & B4).
  exists c. rewrite times_snoc. split; [auto|]. split; [auto|]. split.
  - intros [H|H]; apply B3; [auto|right; lia].
  - intros H. specialize (B4 H). lia.
Qed.

Lemma inv_removed h s s' f k : Inv h s -> removed s s' f k -> Inv h s'.
Proof.
  intros [A1 A2 A3 A4 A5 A6 A7 A8] [[_ B1 B2 B3 B4] C1 C2 C3 C4 C5].
  assert (Hocc : forall g k' t, occ s' g k' t -> occ s g k' t).
  { unfold occ. intros g k' t. rewrite C1. destruct (Nat.eqb_spec g f) as [->|]; auto. apply erase_sub. }
  split.
  - intros g. rewrite C1. destruct (Nat.eqb_spec g f) as [->|]; auto. now apply erase_nodup.
  - intros g k' t Ho. rewrite C2. eauto.
  - intros g k' t Ho. rewrite B2. eauto.
  - intros n x Hx. destruct (C4 n x Hx) as (x0 & Hx0 & ->). rewrite (A4 n x0 Hx0). specialize (B1 n). unfold clsof in B1.
    rewrite Hx, Hx0 in B1. cbn in B1. congruence.
  - intros g k' n i Ho. rewrite B1, C3, B3. apply A5. auto.
  - intros n i g k'. rewrite C3, C2. intros H. destruct (A6 n i g k' H) as [D1 D2]. split; auto.
  - intros c p k'. rewrite C5, C2. intros H. destruct (A7 c p k' H) as [D1 D2]. split; auto.
  - intros g k' c Ho. rewrite B1, C5. eauto.
Qed.

(** registering and remembering the connection, as connect does *)
Record attached (s s' : state) (f n i k : nat) : Prop := mkAtt {
  at_stable : stable s s';
  at_k : k = nextof s f;
  at_alive : aliveof s f = true;
  at_cbs : forall g, cbsof s' g = if Nat.eqb g f then cbsof s f ++ [(k, ToInput n i)] else cbsof s g;
  at_next : forall g, nextof s' g = if Nat.eqb g f then Datatypes.S k else nextof s g;
  at_ins : forall n' i', insof s' n' i' = if Nat.eqb n' n && Nat.eqb i' i then Some (f, k) else insof s n' i';
  at_insl : forall n' x', nth_error s' n' = Some x' -> exists x, nth_error s n' = Some x /\ length (ins x') = length (ins x);
  at_last : forall n', lastof s' n' = lastof s n'
}.
Lemma attach_eff s f n i s1 k x :
  register s f (ToInput n i) = Ok (s1, k) -> live s1 n = Ok x -> i < length (ins x) ->
  attached s (upd n (set_ins x (upd i (Some (f, k)) (ins x))) s1) f n i k.
Proof.
  intros Hr Hl Hi. destruct (register_eff _ _ _ _ _ Hr) as [[R0 R1 R2 R3 R4] R5 R6 R7 R8 R9 R10 R11].
  destruct (live_view _ _ _ Hl) as (Hn & V1 & V2 & V3 & V4 & V5 & V6 & V7). split; [split|..].
  - rewrite upd_length. auto.
  - intros m. rewrite <- R1. view Hn. destruct (Nat.eqb_spec m n) as [->|]; [rewrite Hn|]; reflexivity.
  - intros m. rewrite <- R2. view Hn. destruct (Nat.eqb_spec m n) as [->|]; [rewrite Hn|]; reflexivity.
  - intros m. rewrite <- R3. view Hn. destruct (Nat.eqb_spec m n) as [->|]; [rewrite Hn|]; reflexivity.
  - intros m. rewrite <- R4. view Hn. destruct (Nat.eqb_spec m n) as [->|]; [rewrite Hn|]; reflexivity.
  - auto.
  - auto.
  - intros g. rewrite <- R7. view Hn. destruct (Nat.eqb_spec g n) as [->|]; [rewrite Hn|]; reflexivity.
  - intros g. rewrite <- R8. view Hn. destruct (Nat.eqb_spec g n) as [->|]; [rewrite Hn|]; reflexivity.
  - intros n' i'. rewrite <- R9. unfold insof. rewrite (nth_upd_case _ _ _ _ _ Hn). destruct (Nat.eqb_spec n' n) as [->|]; cbn [andb]; auto.
    rewrite Hn. cbn [ins set_ins]. destruct (Nat.eqb_spec i' i) as [->|].
    + now rewrite nth_upd_eq.
    + now rewrite nth_upd_neq by auto.
  - intros n' x'. rewrite (nth_upd_case _ _ _ _ _ Hn). destruct (Nat.eqb_spec n' n) as [->|].
    + intros H. injection H as <-. cbn. rewrite upd_length. destruct (R10 n x Hn) as (y & Hy & ->). eauto.
    + intros H. destruct (R10 n' x' H) as (y & Hy & ->). eauto.
  - intros m. rewrite <- R11. view Hn. destruct (Nat.eqb_spec m n) as [->|]; [rewrite Hn|]; reflexivity.
Qed.

Lemma nodup_snoc (l : list (nat * target)) k t : NoDup (map fst l) -> (forall k' t', In (k', t') l -> k' < k) -> NoDup (map fst (l ++ [(k, t)])).
Proof.
  intros HN Hlt. rewrite map_app. cbn. induction l as [|[a b] l IH]; cbn in *; [repeat constructor; auto|].
  inversion HN; subst. constructor.
  - intros H. apply in_app_or in H as [H|[H|[]]]; auto. subst. specialize (Hlt a b (or_introl eq_refl)). lia.
  - apply IH; auto. intros; eapply Hlt; eauto.
Qed.

Lemma occ_snoc (s s' : state) f k t : (forall g, cbsof s' g = if Nat.eqb g f then cbsof s f ++ [(k, t)] else cbsof s g) ->
  forall g k' t', occ s' g k' t' <-> occ s g k' t' \/ g = f /\ k' = k /\ t' = t.
Proof.
  intros H g k' t'. unfold occ. rewrite H. destruct (Nat.eqb_spec g f) as [->|Hne].
  - rewrite in_app_iff. cbn. split.
    + intros [Hi|[E|[]]]; auto. injection E as <- <-. auto.
    + intros [Hi|(_ & -> & ->)]; auto.
  - split; auto. intros [Hi|[E _]]; auto. congruence.
Qed.

Lemma inv_attached h s s' f n i k c :
  Inv h s -> attached s s' f n i k -> clsof s n = Some c -> i < arity c ->
  (replaces c = true \/ times (connects n) h <= 1 -> forall g k', ~ occ s g k' (ToInput n i)) ->
  (internalof s n = false -> 1 <= times (connects n) h) -> Inv h s'.
Proof.
  intros [A1 A2 A3 A4 A5 A6 A7 A8] [[_ B1 B2 B3 B4] C1 C2 C3 C4 C5 C6 C7] Hc Hi Hno Hint.
  pose proof (occ_snoc s s' f k (ToInput n i) C3) as Hocc. subst k. split.
  - intros g. rewrite C3. destruct (Nat.eqb_spec g f) as [->|]; auto. apply nodup_snoc; auto. intros; eauto.
  - intros g k' t Ho. rewrite C4. apply Hocc in Ho as [Ho|(-> & -> & ->)].
    + specialize (A2 g k' t Ho). destruct (Nat.eqb_spec g f); subst; lia.
    + rewrite Nat.eqb_refl. lia.
  - intros g k' t Ho. rewrite B2. apply Hocc in Ho as [Ho|(-> & -> & ->)]; eauto.
  - intros m x Hx. destruct (C6 m x Hx) as (x0 & Hx0 & ->). rewrite (A4 m x0 Hx0). specialize (B1 m). unfold clsof in B1.
    rewrite Hx, Hx0 in B1. cbn in B1. congruence.
  - intros g k' n' i' Ho. rewrite B1, C5, B3. apply Hocc in Ho as [Ho|(-> & -> & E)].
    + destruct (A5 g k' n' i' Ho) as (c' & D1 & D2 & D3 & D4). exists c'. split; [auto|]. split; [auto|]. split; [|auto].
      intros Hcond. destruct (Nat.eqb_spec n' n) as [->|]; cbn [andb]; auto. destruct (Nat.eqb_spec i' i) as [->|]; auto.
      exfalso. rewrite Hc in D1. injection D1 as <-. eapply Hno; eauto.
    + injection E as -> ->. exists c. split; [auto|]. split; [auto|]. split; [|auto]. intros _. now rewrite !Nat.eqb_refl.
  - intros n' i' g k'. rewrite C5. destruct (Nat.eqb n' n && Nat.eqb i' i) eqn:E.
    + apply andb_true_iff in E as [E1 E2]. apply Nat.eqb_eq in E1, E2. subst. intros H. injection H as <- <-. rewrite C4, Nat.eqb_refl.
      split; [lia|]. intros t Ho. apply Hocc in Ho as [Ho|(_ & _ & ->)]; auto. apply A2 in Ho. lia.
    + intros H. destruct (A6 n' i' g k' H) as [D1 D2]. rewrite C4. split; [destruct (Nat.eqb_spec g f); subst; lia|].
      intros t Ho. apply Hocc in Ho as [Ho|(-> & -> & ->)]; auto. lia.
  - intros c' p k'. rewrite C7, C4. intros H. destruct (A7 c' p k' H) as [D1 D2]. split; [destruct (Nat.eqb_spec p f); subst; lia|].
    intros t Ho. apply Hocc in Ho as [Ho|(-> & -> & ->)]; auto. lia.
  - intros g k' c' Ho. rewrite B1, C7. apply Hocc in Ho as [Ho|(-> & -> & E)]; [auto|discriminate].
Qed.

Lemma inv_user h s s' f k u : Inv h s -> registered s s' f k (ToUser u) -> Inv h s'.
Proof.
  intros [A1 A2 A3 A4 A5 A6 A7 A8] [[_ B1 B2 B3 B4] C1 C2 C3 C4 C5 C6 C7].
  pose proof (occ_snoc s s' f k (ToUser u) C3) as Hocc. subst k. split.
  - intros g. rewrite C3. destruct (Nat.eqb_spec g f) as [->|]; auto. apply nodup_snoc; auto. intros; eauto.
  - intros g k' t Ho. rewrite C4. apply Hocc in Ho as [Ho|(-> & -> & ->)].
    + specialize (A2 g k' t Ho). destruct (Nat.eqb_spec g f); subst; lia.
    + rewrite Nat.eqb_refl. lia.
  - intros g k' t Ho. rewrite B2. apply Hocc in Ho as [Ho|(-> & -> & ->)]; eauto.
  - intros m x Hx. destruct (C6 m x Hx) as (x0 & Hx0 & ->). rewrite (A4 m x0 Hx0). specialize (B1 m). unfold clsof in B1.
    rewrite Hx, Hx0 in B1. cbn in B1. congruence.
  - intros g k' n' i' Ho. rewrite B1, C5, B3. apply Hocc in Ho as [Ho|(-> & -> & E)]; [auto|discriminate].
  - intros n' i' g k'. rewrite C5. intros H. destruct (A6 n' i' g k' H) as [D1 D2]. rewrite C4. split; [destruct (Nat.eqb_spec g f); subst; lia|].
    intros t Ho. apply Hocc in Ho as [Ho|(-> & -> & ->)]; auto. lia.
  - intros c' p k'. rewrite C7, C4. intros H. destruct (A7 c' p k' H) as [D1 D2]. split; [destruct (Nat.eqb_spec p f); subst; lia|].
    intros t Ho. apply Hocc in Ho as [Ho|(-> & -> & ->)]; auto. lia.
  - intros g k' c' Ho. rewrite B1, C7. apply Hocc in Ho as [Ho|(-> & -> & E)]; [auto|discriminate].
Qed.

(** registering lastFilterCB and remembering it *)
Record attached_out (s s' : state) (p c k : nat) : Prop := mkAtto {
  ao_stable : stable s s';
  ao_k : k = nextof s p;
  ao_alive : aliveof s p = true;
  ao_cbs : forall g, cbsof s' g = if Nat.eqb g p then cbsof s p ++ [(k, ToOutput c)] else cbsof s g;
  ao_next : forall g, nextof s' g = if Nat.eqb g p then Datatypes.S k else nextof s g;
  ao_ins : forall n i, insof s' n i = insof s n i;
  ao_insl : forall n x', nth_error s' n = Some x' -> exists x, nth_error s n = Some x /\ ins x' = ins x;
  ao_last : forall n, lastof s' n = if Nat.eqb n c then Some (p, k) else lastof s n
}.
Lemma attach_out_eff s p c s1 k x :
  register s p (ToOutput c) = Ok (s1, k) -> live s1 c = Ok x ->
  attached_out s (upd c (set_chain x (filters x) (Some (p, k))) s1) p c k.
Proof.
  intros Hr Hl. destruct (register_eff _ _ _ _ _ Hr) as [[R0 R1 R2 R3 R4] R5 R6 R7 R8 R9 R10 R11].
  destruct (live_view _ _ _ Hl) as (Hn & V1 & V2 & V3 & V4 & V5 & V6 & V7). split; [split|..].
  - rewrite upd_length. auto.
  - intros m. rewrite <- R1. view Hn. destruct (Nat.eqb_spec m c) as [->|]; [rewrite Hn|]; reflexivity.
  - intros m. rewrite <- R2. view Hn. destruct (Nat.eqb_spec m c) as [->|]; [rewrite Hn|]; reflexivity.
  - intros m. rewrite <- R3. view Hn. destruct (Nat.eqb_spec m c) as [->|]; [rewrite Hn|]; reflexivity.
  - intros m. rewrite <- R4. view Hn. destruct (Nat.eqb_spec m c) as [->|]; [rewrite Hn|]; reflexivity.
  - auto.
  - auto.
  - intros g. rewrite <- R7. view Hn. destruct (Nat.eqb_spec g c) as [->|]; [rewrite Hn|]; reflexivity.
  - intros g. rewrite <- R8. view Hn. destruct (Nat.eqb_spec g c) as [->|]; [rewrite Hn|]; reflexivity.
  - intros n i. rewrite <- R9. view Hn. destruct (Nat.eqb_spec n c) as [->|]; [rewrite Hn|]; reflexivity.
  - intros n' x'. rewrite (nth_upd_case _ _ _ _ _ Hn). destruct (Nat.eqb_spec n' c) as [->|]; [|eauto].
    intros H. injection H as <-. cbn. destruct (R10 c x Hn) as (y & Hy & ->). eauto.
  - intros m. rewrite <- R11. view Hn. destruct (Nat.eqb_spec m c) as [->|]; [|]; reflexivity.
Qed.
Lemma inv_attached_out h s s' p c k :
  Inv h s -> attached_out s s' p c k -> clsof s c = Some Chain -> (forall g k', ~ occ s g k' (ToOutput c)) -> Inv h s'.
Proof.
  intros [A1 A2 A3 A4 A5 A6 A7 A8] [[_ B1 B2 B3 B4] C1 C2 C3 C4 C5 C6 C7] Hc Hno.
  pose proof (occ_snoc s s' p k (ToOutput c) C3) as Hocc. subst k. split.
  - intros g. rewrite C3. destruct (Nat.eqb_spec g p) as [->|]; auto. apply nodup_snoc; auto. intros; eauto.
  - intros g k' t Ho. rewrite C4. apply Hocc in Ho as [Ho|(-> & -> & ->)].
    + specialize (A2 g k' t Ho). destruct (Nat.eqb_spec g p); subst; lia.
    + rewrite Nat.eqb_refl. lia.
  - intros g k' t Ho. rewrite B2. apply Hocc in Ho as [Ho|(-> & -> & ->)]; eauto.
  - intros m x Hx. destruct (C6 m x Hx) as (x0 & Hx0 & ->). rewrite (A4 m x0 Hx0). specialize (B1 m). unfold clsof in B1.
    rewrite Hx, Hx0 in B1. cbn in B1. congruence.
  - intros g k' n' i' Ho. rewrite B1, C5, B3. apply Hocc in Ho as [Ho|(-> & -> & E)]; [auto|discriminate].
  - intros n' i' g k'. rewrite C5. intros H. destruct (A6 n' i' g k' H) as [D1 D2]. rewrite C4. split; [destruct (Nat.eqb_spec g p); subst; lia|].
    intros t Ho. apply Hocc in Ho as [Ho|(-> & -> & ->)]; auto. lia.
  - intros c' p' k'. rewrite C7, C4. destruct (Nat.eqb_spec c' c) as [->|].
    + intros H. injection H as <- <-. rewrite Nat.eqb_refl. split; [lia|]. intros t Ho. apply Hocc in Ho as [Ho|(_ & _ & ->)]; auto.
      apply A2 in Ho. lia.
    + intros H. destruct (A7 c' p' k' H) as [D1 D2]. split; [destruct (Nat.eqb_spec p' p); subst; lia|].
      intros t Ho. apply Hocc in Ho as [Ho|(-> & -> & ->)]; auto. lia.
  - intros g k' c' Ho. rewrite B1, C7. apply Hocc in Ho as [Ho|(-> & -> & E)].
    + destruct (A8 _ _ _ Ho) as [D1 D2]. destruct (Nat.eqb_spec c' c) as [->|]; auto. exfalso. eapply Hno; eauto.
    + injection E as ->. rewrite Nat.eqb_refl. auto.
Qed.

(** ** connectInput *)
Lemma disconnect_all_eff h l : forall s s', Inv h s -> disconnect_all s l = Ok s' ->
  Inv h s' /\ stable s s' /\ (forall g, nextof s' g = nextof s g) /\ (forall n i, insof s' n i = insof s n i) /\
  (forall n x', nth_error s' n = Some x' -> exists x, nth_error s n = Some x /\ ins x' = ins x) /\
  (forall n, lastof s' n = lastof s n) /\
  forall g k t, occ s' g k t <-> occ s g k t /\ ~ In (Some (g, k)) l.
Proof.
  induction l as [|c l IH]; intros s s' HI H; cbn [disconnect_all] in H.
  - injection H as <-. split; [auto|]. split; [apply stable_refl|]. do 4 (split; [eauto|]). intros g k t. cbn. tauto.
  - destruct (disconnect s c) as [s1|] eqn:Hd; [|discriminate]. cbn [bind] in H. destruct c as [[f k0]|].
    + pose proof (disconnect_eff _ _ _ _ Hd) as Hr. pose proof (inv_removed _ _ _ _ _ HI Hr) as HI1.
      destruct (IH s1 s' HI1 H) as (J1 & J2 & J3 & J4 & J5 & J6 & J7). destruct Hr as [R1 R2 R3 R4 R5 R6].
      split; [auto|]. split; [eapply stable_trans; eauto|]. split; [intros; rewrite J3; auto|]. split; [intros; rewrite J4; auto|].
      split. { intros n x' Hx'. destruct (J5 n x' Hx') as (x1 & Hx1 & ->). eauto. }
      split; [intros; rewrite J6; auto|].
      intros g k t. rewrite J7. cbn [In]. unfold occ at 1. rewrite R2. destruct (Nat.eqb_spec g f) as [->|Hne].
      * rewrite erase_in by apply (i_nodup _ _ HI). unfold occ. split.
        -- intros [[H1 H2] H3]. split; auto. intros [E|E]; [injection E as ->; congruence|auto].
        -- intros [H1 H2]. split; [split; auto|]; intros E; apply H2; auto. left. congruence.
      * unfold occ. split.
        -- intros [H1 H2]. split; auto. intros [E|E]; [injection E as -> ->; congruence|auto].
        -- intros [H1 H2]. split; auto.
    + cbn in Hd. injection Hd as <-. destruct (IH s s' HI H) as (J1 & J2 & J3 & J4 & J5 & J6 & J7).
      do 6 (split; [auto|]). intros g k t. rewrite J7. cbn [In]. split.
      * intros [H1 H2]. split; auto. intros [E|E]; [discriminate|auto].
      * intros [H1 H2]. split; auto.
Qed.

Lemma connect_slots_eff h n c fs : forall i s s', Inv h s -> connect_slots s n i fs = Ok s' ->
  clsof s n = Some c -> i + length fs <= arity c ->
  (replaces c = true \/ times (connects n) h <= 1 -> forall j g k', i <= j -> ~ occ s g k' (ToInput n j)) ->
  (internalof s n = false -> 1 <= times (connects n) h) ->
  Inv h s' /\ stable s s' /\ (forall n', lastof s' n' = lastof s n') /\
  (forall n' i', n' <> n -> insof s' n' i' = insof s n' i') /\
  (forall g k t, occ s g k t -> occ s' g k t) /\
  (forall g k t, occ s' g k t -> occ s g k t \/ exists j, nth_error fs j = Some g /\ t = ToInput n (i + j)) /\
  (forall j f, nth_error fs j = Some f -> exists k, occ s' f k (ToInput n (i + j))).
Proof.
  induction fs as [|f fs IH]; intros i s s' HI H Hc Har Hno Hint; cbn [connect_slots] in H.
  - injection H as <-. split; [auto|]. split; [apply stable_refl|]. do 4 (split; [auto|]). intros [|j] f Hj; discriminate.
  - destruct (register s f (ToInput n i)) as [[s1 k]|] eqn:Hr; [|discriminate]. cbn [bind] in H.
    destruct (live s1 n) as [x|] eqn:Hl; [|discriminate]. cbn [bind] in H.
    assert (Hi : i < length (ins x)).
    { destruct (register_eff _ _ _ _ _ Hr) as [[_ R1 _ _ _] _ _ _ _ _ R10 _]. apply live_nth in Hl as [Hn _].
      destruct (R10 n x Hn) as (y & Hy & ->). rewrite (i_insl _ _ HI n y Hy). cbn in Har. unfold clsof in Hc. rewrite Hy in Hc. cbn in Hc.
      injection Hc as ->. lia. }
    pose proof (attach_eff s f n i s1 k x Hr Hl Hi) as Hat.
    set (s2 := upd n (set_ins x (upd i (Some (f, k)) (ins x))) s1) in *.
    cbn in Har. assert (HI2 : Inv h s2).
    { apply (inv_attached h s s2 f n i k c HI Hat Hc); [lia| |exact Hint]. intros Hcond g k'. apply Hno; auto. }
    destruct Hat as [T0 T1 T2 T3 T4 T5 T6 T7]. pose proof (occ_snoc s s2 f k (ToInput n i) T3) as Hocc.
    destruct (IH (Datatypes.S i) s2 s' HI2 H) as (J1 & J2 & J3 & J4 & J5 & J6 & J7).
    + now rewrite (sb_cls _ _ T0).
    + lia.
    + intros Hcond j g k' Hj Ho. apply Hocc in Ho as [Ho|(-> & -> & E)]; [eapply (Hno Hcond j); eauto; lia|]. injection E as E. lia.
    + now rewrite (sb_int _ _ T0).
    + split; [auto|]. split; [eapply stable_trans; eauto|]. split; [intros; rewrite J3; auto|].
      split. { intros n' i' Hne. rewrite J4 by auto. rewrite T5. destruct (Nat.eqb_spec n' n); [contradiction|reflexivity]. }
      split. { intros g k' t Ho. apply J5. apply Hocc. auto. }
      split.
      { intros g k' t Ho. apply J6 in Ho as [Ho|(j & Hj & ->)].
        - apply Hocc in Ho as [Ho|(-> & -> & ->)]; auto. right. exists 0. rewrite Nat.add_0_r. auto.
        - right. exists (Datatypes.S j). split; auto. f_equal. lia. }
      intros [|j] f' Hj.
      * injection Hj as <-. exists k. rewrite Nat.add_0_r. apply J5, Hocc. auto.
      * destruct (J7 j f' Hj) as (k' & Hk'). exists k'. replace (i + Datatypes.S j) with (Datatypes.S i + j) by lia. exact Hk'.
Qed.

(** occurrences of callbacks for other filters are not touched *)
Lemma connect_input_eff h s n fs s' c :
  Inv h s -> connect_input s n fs = Ok s' -> clsof s n = Some c ->
  (replaces c = false -> times (connects n) h <= 1 -> forall g k i, ~ occ s g k (ToInput n i)) ->
  (internalof s n = false -> 1 <= times (connects n) h) ->
  Inv h s' /\ stable s s' /\ (forall n', lastof s' n' = lastof s n') /\
  (forall n' i', n' <> n -> insof s' n' i' = insof s n' i') /\
  (forall g k t, (forall i, t <> ToInput n i) -> occ s' g k t <-> occ s g k t) /\
  (forall g k i, occ s' g k (ToInput n i) -> ((replaces c = false /\ occ s g k (ToInput n i)) \/ (c <> Source /\ nth_error fs i = Some g))) /\
  (c <> Source -> forall j f, nth_error fs j = Some f -> exists k, occ s' f k (ToInput n j)) /\
  length fs <= arity c.
Proof.
  intros HI H Hc Hfirst Hint. unfold connect_input in H. destruct (live s n) as [x|] eqn:Hl; [|discriminate]. cbn [bind] in H.
  destruct (live_view _ _ _ Hl) as (Hn & V1 & _). rewrite Hc in V1. injection V1 as Hcx.
  destruct (Nat.ltb_spec (arity (cls x)) (length fs)) as [|Har]; [discriminate|]. rewrite <- Hcx in *.
  assert (Hmain : c <> Source -> (do s1 <- (if replaces c then disconnect_all s (ins x) else Ok s); connect_slots s1 n 0 fs) = Ok s' ->
    Inv h s' /\ stable s s' /\ (forall n', lastof s' n' = lastof s n') /\
    (forall n' i', n' <> n -> insof s' n' i' = insof s n' i') /\
    (forall g k t, (forall i, t <> ToInput n i) -> occ s' g k t <-> occ s g k t) /\
    (forall g k i, occ s' g k (ToInput n i) -> ((replaces c = false /\ occ s g k (ToInput n i)) \/ (c <> Source /\ nth_error fs i = Some g))) /\
    (c <> Source -> forall j f, nth_error fs j = Some f -> exists k, occ s' f k (ToInput n j)) /\
    length fs <= arity c).
  { intros Hns HH. destruct (replaces c) eqn:Hrep.
    - destruct (disconnect_all s (ins x)) as [s1|] eqn:Hd; [|discriminate]. cbn [bind] in HH.
      destruct (disconnect_all_eff h _ _ _ HI Hd) as (J1 & J2 & J3 & J4 & J5 & J6 & J7).
      assert (Hnone : forall j g k', ~ occ s1 g k' (ToInput n j)).
      { intros j g k' Ho. apply J7 in Ho as [Ho Hni]. destruct (i_held _ _ HI _ _ _ _ Ho) as (c' & D1 & D2 & D3 & _).
        rewrite Hc in D1. injection D1 as <-. specialize (D3 (or_introl Hrep)). unfold insof in D3. rewrite Hn in D3.
        apply Hni. rewrite <- D3. apply nth_In. rewrite (i_insl _ _ HI n x Hn), <- Hcx. exact D2. }
      destruct (connect_slots_eff h n c fs 0 s1 s' J1 HH) as (K1 & K2 & K3 & K4 & K5 & K6 & K7).
      + rewrite (sb_cls _ _ J2). auto.
      + lia.
      + intros _ j g k' _. apply Hnone.
      + rewrite (sb_int _ _ J2). auto.
      + split; [auto|]. split; [eapply stable_trans; eauto|]. split; [intros; rewrite K3; auto|].
        split; [intros; rewrite K4; auto|]. split.
        { intros g k t Ht. split.
          - intros Ho. apply K6 in Ho as [Ho|(j & Hj & ->)]; [apply J7 in Ho; tauto|exfalso; eapply Ht; reflexivity].
          - intros Ho. apply K5, J7. split; auto. intros Hin. apply In_nth with (d := None) in Hin as (i & Hi & E).
            destruct (i_owner _ _ HI n i g k) as [_ HO]; [unfold insof; rewrite Hn; exact E|]. apply (Ht i). auto. }
        split. { intros g k i Ho. right. apply K6 in Ho as [Ho|(j & Hj & E)]; [exfalso; eapply Hnone; eauto|].
          injection E as ->. auto. }
        split; [|auto]. intros _ j f Hj. apply (K7 j f Hj).
    - destruct (connect_slots_eff h n c fs 0 s s' HI HH) as (K1 & K2 & K3 & K4 & K5 & K6 & K7); auto.
      + intros [E|Ht] j g k' _; [congruence|]. now apply Hfirst.
      + split; [auto|]. split; [auto|]. split; [auto|]. split; [auto|]. split.
        { intros g k t Ht. split; [|auto]. intros Ho. apply K6 in Ho as [Ho|(j & Hj & ->)]; auto. exfalso; eapply Ht; reflexivity. }
        split. { intros g k i Ho. apply K6 in Ho as [Ho|(j & Hj & E)]; [auto|]. injection E as ->. auto. }
        split; [|auto]. intros _ j f Hj. apply (K7 j f Hj). }
  destruct c; try (apply Hmain; [discriminate|exact H]).
  injection H as <-. split; [auto|]. split; [apply stable_refl|]. split; [auto|]. split; [auto|]. split; [tauto|].
  split; [intros; left; auto|]. split; [congruence|auto].
Qed.
End Wiring.
