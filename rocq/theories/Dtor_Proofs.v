(** Lemmas about filters destroyed while other threads deliver messages to them. *)
From Coq Require Import List Arith Bool Lia.
From Verif Require Import Base Dtor_Model Dtor_Spec.
Import ListNotations.

Lemma nth_error_upd {A} t t' (x : A) l :
  nth_error (upd t x l) t' = if Nat.eqb t t' then (if t <? length l then Some x else None) else nth_error l t'.
Proof.
  revert t t'; induction l as [|h r IH]; intros [|t] [|t']; cbn; auto.
  - destruct (t =? t'); auto.
  - rewrite IH. destruct (t =? t'); auto.
Qed.
Lemma nth_error_lt {A} t (x : A) l : nth_error l t = Some x -> t <? length l = true.
Proof. intros H. apply Nat.ltb_lt. apply nth_error_Some. congruence. Qed.
Lemma exec_app k up a b s : exec k up (a ++ b) s = do s' <- exec k up a s; exec k up b s'.
Proof. revert s; induction a as [|t a IH]; intros s; cbn; auto. destruct (step k up t s); cbn; auto. Qed.

Section Inv.
Variables (k : nat) (up : nat -> nat) (d : nat).
Notation step := (step k up).
Notation exec := (exec k up).

Definition holds (p : phase) (j : nat) : Prop :=
  match p with Calling j' _ | Inside j' _ => j' = j | Unhooking i => up i = j | _ => False end.
Definition pending (p : phase) (l : list op) : list op :=
  match p with Waiting o => o :: l | Unhooking i => Disc i :: l | _ => l end.
Definition at_ (s : state) (t : nat) (p : phase) (l : list op) : Prop := nth_error (threads s) t = Some (p, l).
(** the calls of the destroyer before the end *)
Definition no_end (a : list op) : Prop := ~ In End a.

Record Inv (s : state) : Prop := mkInv {
  I_hold : forall t p l j, at_ s t p l -> holds p j -> owner s j = Some t;
  I_own : forall j t, owner s j = Some t -> exists p l, at_ s t p l /\ holds p j;
  I_call : forall t p l j r, at_ s t p l -> (p = Calling j r \/ p = Inside j r) -> forall i, In i r -> conn s i = true /\ up i = j;
  I_inside : forall t j r l, at_ s t (Inside j r) l -> r <> [];
  I_wait : forall t o l, at_ s t (Waiting o) l -> (exists j, o = Emit j) \/ (exists i, o = Disc i);
  I_dead : alive s = false -> forall i, conn s i = false;
  I_other : forall t p l, at_ s t p l -> t <> d -> p <> Firing /\ emitter (pending p l);
  I_d : forall p l, at_ s d p l ->
    (alive s = true /\ exists a b, pending p l = a ++ End :: b /\ no_end a /\ spinner b /\
       (forall i, conn s i = true -> In (Disc i) a) /\ (timer s = true -> In Cancel a)) \/
    (alive s = false /\ spinner (pending p l) /\ timer s = false /\ p <> Firing)
}.

Lemma at_goto s t p l t' p' l' p0 l0 : at_ s t p0 l0 ->
  at_ (goto s t p l) t' p' l' <-> (t' = t /\ p' = p /\ l' = l) \/ (t' <> t /\ at_ s t' p' l').
Proof.
  unfold at_, goto; cbn [threads]. intros H. rewrite nth_error_upd. rewrite (nth_error_lt _ _ _ H).
  destruct (Nat.eqb_spec t t') as [->|N].
  - split; [intros E; injection E as <- <-; auto|]. intros [(_ & -> & ->)|[N _]]; [auto|congruence].
  - split; [intros E; right; auto|]. intros [(-> & _)|[_ E]]; [congruence|auto].
Qed.

Lemma emitter_tl o p : emitter (o :: p) -> emitter p.
Proof. intros H x Hx. apply H. now right. Qed.
Lemma spinner_tl o p : spinner (o :: p) -> spinner p.
Proof. intros H x Hx. apply H. now right. Qed.

(** a destroyer that has not come to the end makes a call other than the end *)
Lemma split_end o l a b : o :: l = a ++ End :: b -> o <> End -> exists a', a = o :: a' /\ l = a' ++ End :: b.
Proof. intros E N. destruct a as [|x a']; cbn in E; injection E as -> E; [congruence|]. eauto. Qed.
Lemma no_end_tl o a : no_end (o :: a) -> no_end a.
Proof. intros H X. apply H. now right. Qed.

(** Changing only one thread, keeping the rest *)
Lemma inv_move s t p l p' l' :
  Inv s -> at_ s t p l -> (forall j, holds p' j <-> holds p j) ->
  (forall j r, p' = Calling j r \/ p' = Inside j r -> forall i, In i r -> conn s i = true /\ up i = j) ->
  (forall j r, p' = Inside j r -> r <> []) ->
  (forall o, p' = Waiting o -> (exists j, o = Emit j) \/ (exists i, o = Disc i)) ->
  (t <> d -> p' <> Firing /\ emitter (pending p' l')) ->
  (t = d -> (alive s = true /\ exists a b, pending p' l' = a ++ End :: b /\ no_end a /\ spinner b /\
       (forall i, conn s i = true -> In (Disc i) a) /\ (timer s = true -> In Cancel a)) \/
    (alive s = false /\ spinner (pending p' l') /\ timer s = false /\ p' <> Firing)) ->
  Inv (goto s t p' l').
Proof.
  intros [H1 H2 H3 H4 H5 H6 H7 H8] A Hh Hc Hi Hw Ho Hd.
  assert (G := fun t' p0 l0 => at_goto s t p' l' t' p0 l0 p l A).
  constructor; cbn [owner conn alive timer goto] in *.
  - intros t' p0 l0 j B Hj. apply G in B. destruct B as [(-> & -> & ->)|[N B]]; [|eauto]. eapply H1; eauto. now apply Hh.
  - intros j t' E. destruct (H2 _ _ E) as (p0 & l0 & B & Hj). destruct (Nat.eq_dec t' t) as [->|N].
    + exists p', l'. split; [apply G; auto|]. apply Hh. unfold at_ in *. congruence.
    + exists p0, l0. split; auto. apply G. auto.
  - intros t' p0 l0 j r B E. apply G in B. destruct B as [(-> & -> & ->)|[N B]]; eauto.
  - intros t' j r l0 B. apply G in B. destruct B as [(-> & <- & ->)|[N B]]; eauto.
  - intros t' o l0 B. apply G in B. destruct B as [(-> & <- & ->)|[N B]]; eauto.
  - auto.
  - intros t' p0 l0 B N'. apply G in B. destruct B as [(-> & -> & ->)|[N B]]; eauto.
  - intros p0 l0 B. apply G in B. destruct B as [(<- & -> & ->)|[N B]]; auto.
Qed.

Lemma inv_step s t : Inv s -> exists s', step t s = Ok s' /\ Inv s' /\ length (threads s') = length (threads s).
Proof.
  intros HI. unfold Dtor_Model.step. destruct (nth_error (threads s) t) as [[p l]|] eqn:A; [|eauto].
  assert (A' : at_ s t p l) by exact A. pose proof HI as [H1 H2 H3 H4 H5 H6 H7 H8].
  assert (L : forall s' p' l', length (threads (goto s' t p' l')) = length (threads s')) by (intros; apply upd_length).
  assert (Pd : t = d -> at_ s d p l) by (intros <-; auto).
  destruct p as [|o|j r|j r|i|].
  - (* idle *) destruct l as [|o l]; [eauto|].
    destruct o as [j| |i| |].
    + eexists; split; [reflexivity|]. split; [|apply L]. eapply inv_move; eauto; cbn; try tauto; try discriminate.
      * intros j' r [E|E]; discriminate.
      * intros o E. injection E as <-. eauto.
      * intros N. split; [discriminate|]. now apply (H7 _ _ _ A').
      * intros ->. destruct (H8 _ _ A') as [?|(? & ? & ? & ?)]; [left; auto|right; repeat split; auto; discriminate].
    + destruct (timer s) eqn:T; revert T; intros T.
      * assert (t = d) as -> by (destruct (Nat.eq_dec t d); auto; destruct (H7 _ _ _ A' n) as [_ Q]; destruct (Q Fire) as (? & ?); [now left|discriminate]).
        destruct (H8 _ _ A') as [(Al & a & b & E & Na & Sb & Ca & Ta)|(Al & _ & T' & _)]; [|congruence].
        unfold touch. rewrite Al. eexists; split; [reflexivity|]. split; [|apply L]. cbn in E. destruct (split_end _ _ _ _ E) as (a' & -> & E'); [discriminate|].
        eapply inv_move; eauto; cbn; try tauto; try discriminate; [intros j' r [X|X]; discriminate|].
        intros _. left. split; auto. exists a', b. repeat split; auto; [now apply no_end_tl in Na|intros i Hi; destruct (Ca i Hi); [discriminate|auto]|].
        intros _. destruct (Ta eq_refl); [discriminate|auto].
      * eexists; split; [reflexivity|]. split; [|apply L]. eapply inv_move; eauto; cbn; try tauto; try discriminate.
        -- intros N. destruct (H7 _ _ _ A' N) as [_ Q]. destruct (Q Fire) as (? & ?); [now left|discriminate].
        -- intros ->. destruct (H8 _ _ A') as [(Al & a & b & E & Na & Sb & Ca & Ta)|(Al & S & T' & _)]; cbn in *.
           ++ left. split; auto. destruct (split_end _ _ _ _ E) as (a' & -> & E'); [discriminate|]. exists a', b. repeat split; auto; [now apply no_end_tl in Na| |congruence].
              intros i Hi; destruct (Ca i Hi); [discriminate|auto].
           ++ right. repeat split; auto; [now apply spinner_tl in S|discriminate].
    + assert (t = d) as -> by (destruct (Nat.eq_dec t d); auto; destruct (H7 _ _ _ A' n) as [_ Q]; destruct (Q (Disc i)) as (? & ?); [now left|discriminate]).
      destruct (H8 _ _ A') as [(Al & R)|(Al & S & _)]; [|destruct (S (Disc i)) as [|(? & ?)]; [now left|discriminate..]].
      unfold touch. rewrite Al. eexists; split; [reflexivity|]. split; [|apply L]. eapply inv_move; eauto; cbn; try tauto; try discriminate.
      * intros j' r [E|E]; discriminate.
      * intros o E. injection E as <-. eauto.
    + assert (t = d) as -> by (destruct (Nat.eq_dec t d); auto; destruct (H7 _ _ _ A' n) as [_ Q]; destruct (Q Cancel) as (? & ?); [now left|discriminate]).
      destruct (H8 _ _ A') as [(Al & a & b & E & Na & Sb & Ca & Ta)|(Al & S & _)]; [|destruct (S Cancel) as [|(? & ?)]; [now left|discriminate..]].
      unfold touch. rewrite Al. eexists; split; [reflexivity|]. split; [|rewrite L; auto]. cbn in E. destruct (split_end _ _ _ _ E) as (a' & -> & E'); [discriminate|].
      eapply inv_move with (p := Idle) (l := Cancel :: l); eauto; cbn; try tauto; try discriminate.
      * constructor; cbn; auto; [congruence|].
        intros p0 l0 B. assert (X : (Idle, Cancel :: l) = (p0, l0)) by (unfold at_ in *; cbn in *; congruence). injection X as <- <-. left. split; auto. exists (Cancel :: a'), b. repeat split; auto. discriminate.
      * intros _. left. split; auto. exists a', b. repeat split; auto; [now apply no_end_tl in Na| |discriminate]. intros i Hi; destruct (Ca i Hi); [discriminate|auto].
    + assert (t = d) as -> by (destruct (Nat.eq_dec t d); auto; destruct (H7 _ _ _ A' n) as [_ Q]; destruct (Q End) as (? & ?); [now left|discriminate]).
      destruct (H8 _ _ A') as [(Al & a & b & E & Na & Sb & Ca & Ta)|(Al & S & _)]; [|destruct (S End) as [|(? & ?)]; [now left|discriminate..]].
      unfold touch. rewrite Al. eexists; split; [reflexivity|]. split; [|rewrite L; auto]. cbn in E.
      assert (a = []) as -> by (destruct a as [|x a]; auto; cbn in E; injection E as <- E; exfalso; apply Na; now left).
      cbn in E. injection E as <-. assert (Cf : forall i, conn s i = false) by (intros i; destruct (conn s i) eqn:C; auto; destruct (Ca i C)).
      assert (Tf : timer s = false) by (destruct (timer s); auto; destruct (Ta eq_refl)).
      assert (G := fun t' p0 l0 => at_goto (mkState false (conn s) (timer s) (owner s) (threads s)) d Idle l t' p0 l0 _ _ A').
      constructor; cbn [owner conn alive timer goto] in *; auto.
      * intros t' p0 l0 j B Hj. apply G in B. destruct B as [(-> & -> & ->)|[N B]]; [destruct Hj|eauto].
      * intros j t' X. destruct (H2 _ _ X) as (p0 & l0 & B & Hj). exists p0, l0. split; auto. apply G. right. split; auto. intros ->. unfold at_ in *. assert (Y : p0 = Idle) by congruence. subst p0. destruct Hj.
      * intros t' p0 l0 j r B X i Hi. apply G in B. destruct B as [(-> & -> & ->)|[N B]]; [destruct X; discriminate|].
        destruct (H3 _ _ _ _ _ B X i Hi) as [Y _]. rewrite Cf in Y. discriminate.
      * intros t' j r l0 B. apply G in B. destruct B as [(-> & X & ->)|[N B]]; [discriminate|eapply H4; eauto].
      * intros t' o l0 B. apply G in B. destruct B as [(-> & X & ->)|[N B]]; [discriminate|eapply H5; eauto].
      * intros t' p0 l0 B N'. apply G in B. destruct B as [(-> & -> & ->)|[N B]]; [congruence|eauto].
      * intros p0 l0 B. apply G in B. destruct B as [(_ & -> & ->)|[N B]]; [|congruence]. right. repeat split; auto. discriminate.
  - (* in front of a mutex *)
    destruct (owner s (mutex_of up o)) as [t'|] eqn:O; [eauto|]. eexists; split; [reflexivity|]. split; [|rewrite L; auto].
    set (j := mutex_of up o) in *. set (p' := match o with Disc i => Unhooking i | _ => Calling j (registered k up s j) end).
    assert (Hp : forall x, holds p' x <-> x = j).
    { intros x. unfold p'. destruct (H5 _ _ _ A') as [(y & ->)|(i & ->)]; cbn; unfold j; cbn; split; auto. }
    assert (Pp : pending p' l = pending (Waiting o) l \/ pending (Waiting o) l = Emit j :: pending p' l).
    { unfold p'. destruct (H5 _ _ _ A') as [(y & ->)|(i & ->)]; cbn; auto. }
    assert (Fp : p' <> Firing) by (unfold p'; destruct o; discriminate).
    assert (G := fun t' p0 l0 => at_goto (own s j (Some t)) t p' l t' p0 l0 _ _ A').
    constructor; cbn [owner conn alive timer goto own] in *; auto.
    + intros t' p0 l0 x B Hj. apply G in B. unfold set_at. destruct B as [(-> & -> & ->)|[N B]].
      * apply Hp in Hj. subst x. now rewrite Nat.eqb_refl.
      * destruct (Nat.eqb_spec x j) as [->|_]; [|eapply H1; eauto]. rewrite (H1 _ _ _ _ B Hj) in O. discriminate.
    + intros x t'. unfold set_at. destruct (Nat.eqb_spec x j) as [->|N].
      * intros X. injection X as <-. exists p', l. split; [apply G; auto|]. now apply Hp.
      * intros X. destruct (H2 _ _ X) as (p0 & l0 & B & Hj). exists p0, l0. split; auto. apply G. right. split; auto. intros ->. unfold at_ in *. assert (Y : p0 = Waiting o) by congruence. subst p0. destruct Hj.
    + intros t' p0 l0 x r B X i Hi. apply G in B. destruct B as [(-> & -> & ->)|[N B]]; [|eapply H3; eauto].
      assert (Y : Calling j (registered k up s j) = Calling x r) by (unfold p' in X; destruct o; destruct X; congruence). injection Y as <- <-.
      unfold registered in Hi. apply filter_In in Hi. destruct Hi as [_ Hi]. apply andb_prop in Hi. destruct Hi as [Hi1 Hi2]. apply Nat.eqb_eq in Hi2. auto.
    + intros t' x r l0 B. apply G in B. destruct B as [(-> & X & ->)|[N B]]; [unfold p' in X; destruct o; discriminate|eapply H4; eauto].
    + intros t' o' l0 B. apply G in B. destruct B as [(-> & X & ->)|[N B]]; [unfold p' in X; destruct o; discriminate|eapply H5; eauto].
    + intros t' p0 l0 B N'. apply G in B. destruct B as [(-> & -> & ->)|[N B]]; [|eauto]. split; auto. destruct (H7 _ _ _ A' N') as [_ Q].
      destruct Pp as [->|Pp]; auto. rewrite Pp in Q. now apply emitter_tl in Q.
    + intros p0 l0 B. apply G in B. destruct B as [(-> & -> & ->)|[N B]]; [|auto]. destruct (H8 _ _ A') as [(Al & a & b & E & Na & Sb & Ca & Ta)|(Al & S & T' & _)].
      * left. split; auto. destruct Pp as [->|Pp]; [eauto 10|]. rewrite Pp in E. destruct (split_end _ _ _ _ E) as (a' & -> & E'); [discriminate|].
        exists a', b. repeat split; auto; [now apply no_end_tl in Na|intros i Hi; destruct (Ca i Hi); [discriminate|auto]|intros Ht; destruct (Ta Ht); [discriminate|auto]].
      * right. repeat split; auto. destruct Pp as [->|Pp]; auto. rewrite Pp in S. now apply spinner_tl in S.
  - (* in the loop over the callbacks *)
    destruct r as [|i r].
    + eexists; split; [reflexivity|]. split; [|rewrite L; auto].
      assert (G := fun t' p0 l0 => at_goto (own s j None) t Idle l t' p0 l0 _ _ A').
      constructor; cbn [owner conn alive timer goto own] in *; auto.
      * intros t' p0 l0 x B Hj. apply G in B. unfold set_at. destruct B as [(-> & -> & ->)|[N B]]; [destruct Hj|].
        pose proof (H1 _ _ _ _ B Hj) as O. destruct (Nat.eqb_spec x j) as [->|_]; auto. rewrite (H1 _ _ _ j A' eq_refl) in O. congruence.
      * intros x t'. unfold set_at. destruct (Nat.eqb_spec x j) as [->|N]; [discriminate|]. intros X. destruct (H2 _ _ X) as (p0 & l0 & B & Hj). exists p0, l0. split; auto. apply G. right. split; auto.
        intros ->. unfold at_ in *. assert (Y : p0 = Calling j []) by congruence. subst p0. cbn in Hj. congruence.
      * intros t' p0 l0 x r B X i Hi. apply G in B. destruct B as [(-> & -> & ->)|[N B]]; [destruct X; discriminate|eapply H3; eauto].
      * intros t' x r l0 B. apply G in B. destruct B as [(-> & X & ->)|[N B]]; [discriminate|eapply H4; eauto].
      * intros t' o' l0 B. apply G in B. destruct B as [(-> & X & ->)|[N B]]; [discriminate|eapply H5; eauto].
      * intros t' p0 l0 B N'. apply G in B. destruct B as [(-> & -> & ->)|[N B]]; [|eauto]. split; [discriminate|]. now apply (H7 _ _ _ A').
      * intros p0 l0 B. apply G in B. destruct B as [(-> & -> & ->)|[N B]]; [|auto]. destruct (H8 _ _ A') as [?|(? & ? & ? & ?)]; [left; auto|right; repeat split; auto; discriminate].
    + assert (Al : alive s = true). { destruct (alive s) eqn:Al; auto. destruct (H3 _ _ _ _ _ A' (or_introl eq_refl) i (or_introl eq_refl)) as [C _]. rewrite (H6 eq_refl) in C. discriminate. }
      unfold touch. rewrite Al. eexists; split; [reflexivity|]. split; [|apply L]. eapply inv_move; eauto; cbn; try tauto; try discriminate.
      * intros x r' [X|X]; [discriminate|]. injection X as <- <-. eapply H3; eauto.
      * intros x r' X. injection X as <- <-. discriminate.
      * intros N. split; [discriminate|]. now apply (H7 _ _ _ A').
      * intros ->. destruct (H8 _ _ A') as [?|(? & ? & ? & ?)]; [left; auto|congruence].
  - (* inside a callback *)
    destruct r as [|i r]; [destruct (H4 _ _ _ _ A' eq_refl)|].
    assert (Al : alive s = true). { destruct (alive s) eqn:Al; auto. destruct (H3 _ _ _ _ _ A' (or_intror eq_refl) i (or_introl eq_refl)) as [C _]. rewrite (H6 eq_refl) in C. discriminate. }
    unfold touch. rewrite Al. eexists; split; [reflexivity|]. split; [|apply L]. eapply inv_move; eauto; cbn; try tauto; try discriminate.
    + intros x r' [X|X] i' Hi; [|discriminate]. injection X as <- <-. eapply H3; eauto. now right.
    + intros N. split; [discriminate|]. now apply (H7 _ _ _ A').
    + intros ->. destruct (H8 _ _ A') as [?|(? & ? & ? & ?)]; [left; auto|congruence].
  - (* removing the callback *)
    assert (t = d) as -> by (destruct (Nat.eq_dec t d); auto; destruct (H7 _ _ _ A' n) as [_ Q]; destruct (Q (Disc i)) as (? & ?); [now left|discriminate]).
    destruct (H8 _ _ A') as [(Al & a & b & E & Na & Sb & Ca & Ta)|(Al & S & _)]; [|destruct (S (Disc i)) as [|(? & ?)]; [now left|discriminate..]].
    eexists; split; [reflexivity|]. split; [|rewrite L; auto]. cbn in E. destruct (split_end _ _ _ _ E) as (a' & -> & E'); [discriminate|].
    set (s1 := own (mkState (alive s) (set_at (conn s) i false) (timer s) (owner s) (threads s)) (up i) None).
    assert (G := fun t' p0 l0 => at_goto s1 d Idle l t' p0 l0 _ _ A').
    pose proof (H1 _ _ _ _ A' eq_refl) as Oi.
    constructor; cbn [owner conn alive timer goto own s1] in *; auto.
    + intros t' p0 l0 x B Hj. apply G in B. unfold set_at. destruct B as [(-> & -> & ->)|[N B]]; [destruct Hj|].
      pose proof (H1 _ _ _ _ B Hj) as O. destruct (Nat.eqb_spec x (up i)) as [->|_]; auto. congruence.
    + intros x t'. unfold set_at. destruct (Nat.eqb_spec x (up i)) as [->|N]; [discriminate|]. intros X. destruct (H2 _ _ X) as (p0 & l0 & B & Hj). exists p0, l0. split; auto. apply G. right. split; auto.
      intros ->. unfold at_ in *. assert (Y : p0 = Unhooking i) by congruence. subst p0. cbn in Hj. congruence.
    + intros t' p0 l0 x r B X i' Hi. apply G in B. destruct B as [(-> & -> & ->)|[N B]]; [destruct X; discriminate|].
      destruct (H3 _ _ _ _ _ B X i' Hi) as [Y1 Y2]. split; auto. unfold set_at. destruct (Nat.eqb_spec i' i) as [->|_]; auto.
      assert (holds p0 (up i)) by (destruct X as [->| ->]; cbn; congruence). rewrite (H1 _ _ _ _ B H) in Oi. congruence.
    + intros t' x r l0 B. apply G in B. destruct B as [(-> & X & ->)|[N B]]; [discriminate|eapply H4; eauto].
    + intros t' o' l0 B. apply G in B. destruct B as [(-> & X & ->)|[N B]]; [discriminate|eapply H5; eauto].
    + congruence.
    + intros t' p0 l0 B N'. apply G in B. destruct B as [(-> & -> & ->)|[N B]]; [congruence|eauto].
    + intros p0 l0 B. apply G in B. destruct B as [(_ & -> & ->)|[N B]]; [|congruence]. left. split; auto. exists a', b. repeat split; auto.
      * now apply no_end_tl in Na.
      * intros i'. unfold set_at. destruct (Nat.eqb_spec i' i) as [->|N]; [discriminate|]. intros Hi. destruct (Ca i' Hi) as [X|X]; [congruence|auto].
      * intros Ht. destruct (Ta Ht); [discriminate|auto].
  - (* in the timer callback *)
    assert (t = d) as -> by (destruct (Nat.eq_dec t d); auto; destruct (H7 _ _ _ A' n) as [Q _]; congruence).
    destruct (H8 _ _ A') as [(Al & R)|(Al & _ & _ & Q)]; [|congruence].
    unfold touch. rewrite Al. eexists; split; [reflexivity|]. split; [|apply L]. eapply inv_move; eauto; cbn; try tauto; try discriminate.
    intros j' r [X|X]; discriminate.
Qed.

Lemma inv_exec sched s : Inv s -> exists s', exec sched s = Ok s' /\ Inv s' /\ length (threads s') = length (threads s).
Proof.
  revert s. induction sched as [|t r IH]; intros s HI; [cbn; eauto|]. cbn. destruct (inv_step s t HI) as (s1 & E & H1 & L1). rewrite E. cbn.
  destruct (IH _ H1) as (s2 & E2 & H2 & L2). exists s2. split; [auto|split; [auto|congruence]].
Qed.


(** ** Every execution can be continued to the end *)
Definition weight (x : phase * list op) : nat :=
  match fst x with Idle => 0 | Waiting _ => 2 * k + 2 | Calling _ r => 2 * length r + 1 | Inside _ r => 2 * length r | Unhooking _ | Firing => 1 end
  + (2 * k + 3) * length (snd x).
Definition measure (s : state) : nat := list_sum (map weight (threads s)).
Lemma sum_upd t x y (l : list (phase * list op)) : nth_error l t = Some x ->
  list_sum (map weight (upd t y l)) + weight x = list_sum (map weight l) + weight y.
Proof.
  revert t; induction l as [|h r IH]; intros [|t] H; cbn [nth_error upd map list_sum fold_right] in *; try discriminate.
  - injection H as ->. unfold list_sum. lia.
  - specialize (IH _ H). unfold list_sum in *. lia.
Qed.
Lemma goto_measure s t p l p' l' : at_ s t p l -> weight (p', l') < weight (p, l) -> measure (goto s t p' l') < measure s.
Proof. intros A H. unfold measure, goto; cbn [threads]. pose proof (sum_upd t (p, l) (p', l') _ A). lia. Qed.
Lemma filter_length_seq f a n : length (filter f (seq a n)) <= n.
Proof. revert a; induction n as [|n IH]; intros a; cbn; auto. specialize (IH (S a)). destruct (f a); cbn; lia. Qed.

(** a thread that is neither finished nor in front of a mutex that is taken makes progress *)
Lemma step_measure s t p l s' : at_ s t p l -> (p, l) <> (Idle, []) -> (forall o, p = Waiting o -> owner s (mutex_of up o) = None) ->
  (forall j r, p = Inside j r -> r <> []) -> step t s = Ok s' -> measure s' < measure s.
Proof.
  intros A N W I. unfold Dtor_Model.step. unfold at_ in A. rewrite A.
  assert (A1 : forall q, threads q = threads s -> at_ q t p l) by (intros q E; unfold at_; congruence).
  assert (M1 : forall q p' l', threads q = threads s -> weight (p', l') < weight (p, l) -> measure (goto q t p' l') < measure s).
  { intros q p' l' E H. pose proof (goto_measure q t p l p' l' (A1 _ E) H). unfold measure in *. rewrite E in *. auto. }
  destruct p as [|o|j r|j r|i|].
  - destruct l as [|o l]; [congruence|]. destruct o as [j| |i| |]; unfold touch.
    + intros E; injection E as <-. apply M1; cbn; auto; lia.
    + destruct (timer s); [destruct (alive s); [|discriminate]|]; intros E; injection E as <-; apply M1; cbn; auto; lia.
    + destruct (alive s); [|discriminate]. intros E; injection E as <-. apply M1; cbn; auto; lia.
    + destruct (alive s); [|discriminate]. intros E; injection E as <-. apply M1; cbn; auto; lia.
    + destruct (alive s); [|discriminate]. intros E; injection E as <-. apply M1; cbn; auto; lia.
  - rewrite (W o eq_refl). intros E; injection E as <-. apply M1; auto. unfold weight; cbn [fst snd].
    pose proof (filter_length_seq (fun i => conn s i && (up i =? mutex_of up o)) 0 k). unfold registered. destruct o; cbn -[Nat.mul filter seq] in *; lia.
  - destruct r as [|i r]; unfold touch.
    + intros E; injection E as <-. apply M1; cbn; auto; lia.
    + destruct (alive s); [|discriminate]. intros E; injection E as <-. apply M1; cbn; auto; lia.
  - destruct r as [|i r]; [destruct (I _ _ eq_refl eq_refl)|]. unfold touch. destruct (alive s); [|discriminate]. intros E; injection E as <-. apply M1; cbn; auto; lia.
  - intros E; injection E as <-. apply M1; cbn; auto; lia.
  - unfold touch. destruct (alive s); [|discriminate]. intros E; injection E as <-. apply M1; cbn; auto; lia.
Qed.

Definition is_done (x : phase * list op) : bool := match x with (Idle, []) => true | _ => false end.
Lemma some_progress s : Inv s -> finished s \/ exists t s', step t s = Ok s' /\ measure s' < measure s.
Proof.
  intros HI. destruct (forallb is_done (threads s)) eqn:F.
  - left. intros x Hx. rewrite forallb_forall in F. specialize (F x Hx). destruct x as [[] []]; try discriminate; auto.
  - right. assert (X : exists x, In x (threads s) /\ is_done x = false).
    { clear HI. induction (threads s) as [|y r IH]; cbn in F; [discriminate|]. destruct (is_done y) eqn:D; [|exists y; cbn; auto].
      destruct (IH F) as (x & Hx & Hd). exists x. cbn; auto. }
    destruct X as ([p l] & Hx & Hd). destruct (In_nth_error _ _ Hx) as (t & A).
    assert (N : (p, l) <> (Idle, [])) by (intros E; rewrite E in Hd; discriminate).
    assert (Free : forall t p l, at_ s t p l -> (p, l) <> (Idle, []) -> (forall o, p = Waiting o -> owner s (mutex_of up o) = None) -> exists t s', step t s = Ok s' /\ measure s' < measure s).
    { intros t' p' l' A' N' W'. destruct (inv_step s t' HI) as (s' & E & _). exists t', s'. split; auto. eapply step_measure; eauto. intros j r ->. eapply I_inside; eauto. }
    destruct p as [|o|j r|j r|i|]; try (eapply Free; eauto; discriminate).
    destruct (owner s (mutex_of up o)) as [t'|] eqn:O; [|eapply Free; eauto; intros o' E; injection E as <-; auto].
    destruct (I_own _ HI _ _ O) as (p' & l' & A' & Hh). destruct p' as [|o'|j r|j r|i|]; cbn in Hh; try contradiction; eapply Free; eauto; discriminate.
Qed.
Lemma can_finish s : Inv s -> exists more s', exec more s = Ok s' /\ finished s'.
Proof.
  remember (measure s) as n eqn:E. revert s E. induction n as [n IH] using lt_wf_ind. intros s -> HI.
  destruct (some_progress s HI) as [F|(t & s1 & E1 & M)]; [exists [], s; auto|].
  destruct (inv_step s t HI) as (s1' & E1' & HI1 & _). rewrite E1 in E1'. injection E1' as <-.
  destruct (IH _ M s1 eq_refl HI1) as (more & s' & E' & F'). exists (t :: more), s'. cbn. rewrite E1. auto.
Qed.
End Inv.

(** ** The start *)
Lemma nth_error_program before (p : list op) after t q l :
  nth_error (map (pair Idle) (before ++ p :: after)) t = Some (q, l) ->
  q = Idle /\ ((t = length before /\ l = p) \/ (t <> length before /\ (In l before \/ In l after))).
Proof.
  rewrite nth_error_map. destruct (nth_error (before ++ p :: after) t) as [x|] eqn:E; cbn; [|discriminate]. intros H. injection H as <- <-. split; auto.
  destruct (Nat.lt_trichotomy t (length before)) as [L|[->|L]].
  - rewrite nth_error_app1 in E by auto. right. split; [lia|]. left. eapply nth_error_In; eauto.
  - rewrite nth_error_app2, Nat.sub_diag in E by auto. cbn in E. injection E as <-. auto.
  - rewrite nth_error_app2 in E by lia. right. split; [lia|]. right. destruct (t - length before) as [|m] eqn:M; [lia|]. cbn in E. eapply nth_error_In; eauto.
Qed.
Lemma inv_start k up tm before pre dtor post after :
  parts dtor -> (forall i, i < k -> In (Disc i) dtor) -> (tm = true -> In Cancel dtor) ->
  spinner pre -> spinner post -> Forall emitter before -> Forall emitter after ->
  Inv up (length before) (start k tm (program before (destroyer pre dtor post) after)).
Proof.
  intros Pd Hd Ht S1 S2 F1 F2. rewrite Forall_forall in F1, F2.
  assert (A : forall t q l, at_ (start k tm (program before (destroyer pre dtor post) after)) t q l -> q = Idle /\
     ((t = length before /\ l = destroyer pre dtor post) \/ (t <> length before /\ (In l before \/ In l after)))) by (intros t0 q0 l0 H0; exact (nth_error_program _ _ _ _ _ _ H0)).
  constructor; cbn [owner alive conn timer start].
  - intros t p l j H. apply A in H. destruct H as [-> _]. intros [].
  - discriminate.
  - intros t p l j r H [->| ->]; apply A in H; destruct H; discriminate.
  - intros t j r l H. apply A in H; destruct H; discriminate.
  - intros t o l H. apply A in H; destruct H; discriminate.
  - discriminate.
  - intros t p l H N. apply A in H. destruct H as [-> [[? _]|[_ H]]]; [congruence|]. split; [discriminate|]. cbn. destruct H; auto.
  - intros p l H. apply A in H. destruct H as [-> [[_ ->]|[N _]]]; [|congruence]. left. split; auto. exists (pre ++ dtor), post. cbn. unfold destroyer. rewrite <- app_assoc. repeat split; auto.
    + intros H. apply in_app_or in H. destruct H as [H|H]; [destruct (S1 _ H) as [|(? & ?)]|destruct (Pd _ H) as [|(? & ?)]]; discriminate.
    + intros i H. apply Nat.ltb_lt in H. apply in_or_app. auto.
    + intros H. apply in_or_app. auto.
Qed.

(** ** The destroyer running alone *)
Lemma upd_same {A} t (x : A) l : nth_error l t = Some x -> upd t x l = l.
Proof. revert t; induction l as [|h r IH]; intros [|t] H; cbn in *; try discriminate; [congruence|]. now rewrite IH. Qed.
Lemma run_parts k up dtor : forall s l, (forall j, owner s j = None) -> alive s = true ->
  nth_error (threads s) 0 = Some (Idle, dtor ++ l) -> parts dtor ->
  exists n s', exec k up (repeat 0 n) s = Ok s' /\ alive s' = true /\ (forall j, owner s' j = None) /\
    threads s' = upd 0 (Idle, l) (threads s) /\
    (forall i, conn s i = true -> ~ In (Disc i) dtor -> conn s' i = true) /\
    (timer s = true -> ~ In Cancel dtor -> timer s' = true).
Proof.
  induction dtor as [|o dtor IH]; intros s l O Al T P.
  - exists 0, s. repeat split; auto. symmetry. now apply upd_same.
  - assert (P' : parts dtor) by (intros x Hx; apply P; now right).
    assert (L : 0 <? length (threads s) = true) by (eapply nth_error_lt; eauto).
    destruct (P o (or_introl eq_refl)) as [->|(i & ->)].
    + set (s1 := goto (mkState true (conn s) false (owner s) (threads s)) 0 Idle (dtor ++ l)).
      assert (E1 : step k up 0 s = Ok s1). { unfold step. rewrite T. cbn [app]. unfold touch. rewrite Al. reflexivity. }
      destruct (IH s1 l) as (n & s' & E & A' & O' & T' & C' & M'); auto.
      { unfold s1, goto; cbn [threads]. rewrite nth_error_upd, Nat.eqb_refl, L. reflexivity. }
      exists (S n), s'. cbn [repeat exec]. rewrite E1. cbn [bind]. repeat split; auto.
      * rewrite T'. unfold s1, goto; cbn [threads]. apply upd_upd.
      * intros j Hj Nj. apply C'; auto. intros X. apply Nj. now right.
      * intros _ N. destruct N. now left.
    + set (sa := goto s 0 (Waiting (Disc i)) (dtor ++ l)).
      set (sb := goto (own sa (up i) (Some 0)) 0 (Unhooking i) (dtor ++ l)).
      set (sc := goto (own (mkState (alive sb) (set_at (conn sb) i false) (timer sb) (owner sb) (threads sb)) (up i) None) 0 Idle (dtor ++ l)).
      assert (Ea : step k up 0 s = Ok sa). { unfold step. rewrite T. cbn [app]. unfold touch. rewrite Al. reflexivity. }
      assert (Ta : nth_error (threads sa) 0 = Some (Waiting (Disc i), dtor ++ l)). { unfold sa, goto; cbn [threads]. rewrite nth_error_upd, Nat.eqb_refl, L. reflexivity. }
      assert (Eb : step k up 0 sa = Ok sb). { unfold step. rewrite Ta. cbn [mutex_of]. replace (owner sa (up i)) with (@None nat) by (symmetry; apply O). reflexivity. }
      assert (Tb : nth_error (threads sb) 0 = Some (Unhooking i, dtor ++ l)). { unfold sb, goto, own; cbn [threads]. rewrite nth_error_upd, Nat.eqb_refl. rewrite (nth_error_lt _ _ _ Ta). reflexivity. }
      assert (Ec : step k up 0 sb = Ok sc). { unfold step. rewrite Tb. reflexivity. }
      destruct (IH sc l) as (n & s' & E & A' & O' & T' & C' & M'); auto.
      { intros j. unfold sc, goto, own; cbn [owner]. unfold sb, goto, own, set_at; cbn [owner]. unfold sa, goto, set_at; cbn [owner]. destruct (j =? up i); auto. }
      { unfold sc, goto, own; cbn [threads]. rewrite nth_error_upd, Nat.eqb_refl. rewrite (nth_error_lt _ _ _ Tb). reflexivity. }
      exists (S (S (S n))), s'. cbn [repeat exec]. rewrite Ea; cbn [bind]. rewrite Eb; cbn [bind]. rewrite Ec; cbn [bind]. repeat split; auto.
      * rewrite T'. unfold sc, goto, own; cbn [threads]. unfold sb, goto, own; cbn [threads]. unfold sa, goto; cbn [threads]. now rewrite !upd_upd.
      * intros j Hj Nj. apply C'; [|intros X; apply Nj; now right]. unfold sc, goto, own; cbn [conn]. unfold sb, goto, own, set_at; cbn [conn]. destruct (Nat.eqb_spec j i) as [->|_]; auto. destruct Nj. now left.
      * intros Ht N. apply M'; auto. intros X. apply N. now right.
Qed.
