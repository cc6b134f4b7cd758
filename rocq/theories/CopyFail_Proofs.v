(** Lemmas for C117. *)
From Coq Require Import List Arith Lia Bool.
From Verif Require Import Base Event_Model CopyFail_Model CopyFail_Spec.
Import ListNotations.

Lemma upd_last {A} (l : list A) x y : upd (length l) y (l ++ [x]) = l ++ [y].
Proof. induction l; cbn; congruence. Qed.
Lemma nth_error_upd_same {A} (l : list A) k x : k < length l -> nth_error (upd k x l) k = Some x.
Proof. revert k. induction l as [|y l IH]; intros [|k] H; cbn in *; try lia; auto. apply IH. lia. Qed.
Lemma nth_error_upd_other {A} (l : list A) k j x : j <> k -> nth_error (upd k x l) j = nth_error l j.
Proof. revert k j. induction l as [|y l IH]; intros [|k] [|j] H; cbn; auto; try lia. Qed.
Lemma Forall2_length {A B} (R : A -> B -> Prop) l l' : Forall2 R l l' -> length l = length l'.
Proof. induction 1; cbn; congruence. Qed.
Lemma Forall2_nth {A B} (R : A -> B -> Prop) l l' k a b : Forall2 R l l' -> nth_error l k = Some a -> nth_error l' k = Some b -> R a b.
Proof. intros F. revert k. induction F; intros [|k] Ha Hb; cbn in *; try discriminate; [congruence|eauto]. Qed.
Lemma Forall2_nth_ex {A B} (R : A -> B -> Prop) l l' k a : Forall2 R l l' -> nth_error l k = Some a -> exists b, nth_error l' k = Some b /\ R a b.
Proof. intros F. revert k. induction F; intros [|k] Ha; cbn in *; try discriminate; [injection Ha as <-; eauto|eauto]. Qed.
Lemma Forall2_none {A B} (R : A -> B -> Prop) l l' k : Forall2 R l l' -> nth_error l k = None -> nth_error l' k = None.
Proof. intros F H. apply nth_error_None. apply nth_error_None in H. now rewrite <- (Forall2_length _ _ _ F). Qed.
Lemma Forall2_upd {A B} (R : A -> B -> Prop) l l' k a b : Forall2 R l l' -> R a b -> Forall2 R (upd k a l) (upd k b l').
Proof. intros F. revert k. induction F; intros [|k] H0; cbn; auto. Qed.
Lemma Forall2_upd_l {A B} (R : A -> B -> Prop) l l' k a b : Forall2 R l l' -> nth_error l' k = Some b -> R a b -> Forall2 R (upd k a l) l'.
Proof. intros F. revert k. induction F; intros [|k] H0 H1; cbn in *; auto; try discriminate; injection H0 as ->; auto. Qed.

Section Proofs.
Context {V : Type}.

(** ** getMessage *)
(** what is right of an event: its pointers are valid and, unless it is spoilt, lead to the message it was made from *)
Definition right (h : list V) (e : fevent) (n : known V) : Prop :=
  (forall a, fmsg e = Some a -> a < length h) /\ (forall a, fcopied e = Some a -> a < length h) /\
  (spoilt n = false -> match source n with
                       | None => fmsg e = None /\ fcopied e = None
                       | Some v => (exists a, fmsg e = Some a /\ nth_error h a = Some v) /\ (forall a, fcopied e = Some a -> nth_error h a = Some v)
                       end).
Lemma right_grows h more e n : right h e n -> right (h ++ more) e n.
Proof.
  intros (A & B & C). split; [|split].
  - intros a Ha. rewrite app_length. apply A in Ha. lia.
  - intros a Ha. rewrite app_length. apply B in Ha. lia.
  - intros S. specialize (C S). destruct (source n) as [v|]; auto. destruct C as [(a & C1 & C2) C3]. split.
    + exists a. split; auto. rewrite nth_error_app1; auto.
    + intros a0 H0. rewrite nth_error_app1; auto.
Qed.
Lemma right_spoilt h e v : (forall a, fmsg e = Some a -> a < length h) -> (forall a, fcopied e = Some a -> a < length h) -> right h e (mkKnown v true).
Proof. intros A B. split; auto. split; auto. discriminate. Qed.

Lemma get_right h e n oc h' e' r : right h e n -> honest oc -> get h e oc = (h', e', r) ->
  (exists more, h' = h ++ more) /\ fmsg e' = fmsg e /\ fneed e' = fneed e /\ factory e' = factory e /\
  match r with
  | Ok p => right h' e' n /\ (forall c nc cr, right h' (mkF c p None nc cr) n)
  | Err Thrown => right h' e' (if copy_failed oc (Failed Thrown) then mkKnown (source n) true else n)
  | Err AssertFailed => factory e = false
  | Err UB => fmsg e = None
  | Err _ => False
  end.
Proof.
  intros R Ho. unfold get. assert (forall c p cr nc, p = fmsg e -> right h (mkF c p None nc cr) n) as R0.
  { intros c p cr nc ->. destruct R as (A & B & C). split; [auto|]. split; [discriminate|]. intros S. specialize (C S). cbn. destruct (source n); [destruct C; split; auto; discriminate|tauto]. }
  destruct (fconst e || negb (fneed e)).
  { intros [= <- <- <-]. split; [exists []; now rewrite app_nil_r|]. repeat split; auto; try apply R; apply R0; auto. }
  destruct (fcopied e) as [a|] eqn:Ec.
  { intros [= <- <- <-]. split; [exists []; now rewrite app_nil_r|]. do 3 (split; auto). split; auto. intros c nc cr. destruct R as (A & B & C).
    split; [intros a0 [= <-]; auto|]. split; [discriminate|]. intros S. specialize (C S). cbn. destruct (source n) as [v|]; [|destruct C; congruence]. destruct C as [C1 C2]. split; [exists a; split; auto|discriminate]. }
  destruct (factory e) eqn:Ef; cbn [negb].
  2:{ intros [= <- <- <-]. split; [exists []; now rewrite app_nil_r|]. auto. }
  destruct (created oc) as [d| | |] eqn:Eo; unfold honest in Ho; rewrite Eo in Ho; try tauto.
  2:{ intros [= <- <- <-]. split; [exists []; now rewrite app_nil_r|]. do 3 (split; auto). unfold copy_failed. now rewrite Eo. }
  destruct R as (A & B & C). destruct (fmsg e) as [m|] eqn:Em.
  2:{ intros [= <- <- <-]. split; [eauto|]. cbn. auto. }
  assert (m < length h) as Lm by auto. rewrite nth_error_app1 by auto. destruct (nth_error h m) as [w|] eqn:Ew; [|apply nth_error_None in Ew; lia].
  destruct (assigned oc) as [p|]; rewrite upd_last; intros [= <- <- <-]; (split; [eauto|]); cbn; do 3 (split; auto).
  - unfold copy_failed. rewrite Eo. apply right_spoilt; cbn; intros a [= <-]; rewrite app_length; cbn; lia.
  - assert (nth_error (h ++ [w]) (length h) = Some w) as Hn by (rewrite nth_error_app2, Nat.sub_diag by lia; reflexivity).
    split.
    + split; [intros a [= <-]; rewrite app_length; cbn; lia|]. split; [intros a [= <-]; rewrite app_length; cbn; lia|]. intros S. specialize (C S). cbn. destruct (source n) as [v|]; [|destruct C; discriminate].
      destruct C as [(a & [= <-] & C1) _]. split; [exists m; split; auto; rewrite nth_error_app1; auto|]. intros a [= <-]. congruence.
    + intros c nc cr. split; [intros a [= <-]; rewrite app_length; cbn; lia|]. split; [discriminate|]. intros S. specialize (C S). cbn. destruct (source n) as [v|]; [|destruct C; discriminate].
      destruct C as [(a & [= <-] & C1) _]. split; [|discriminate]. exists (length h). split; auto. congruence.
Qed.

(** ** Programs *)
Definition all_right (s : fstate V) (l : list (known V)) : Prop := Forall2 (right (fmem s)) (fevs s) l.
Lemma all_grow h more es (l : list (known V)) : Forall2 (right h) es l -> Forall2 (right (h ++ more)) es l.
Proof. intros F. induction F; constructor; auto. now apply right_grows. Qed.
Lemma content_of h (e : fevent) n x : right h e n -> spoilt n = false -> content h (fmsg e) = Got x -> x = source n.
Proof.
  intros (_ & _ & C) S. specialize (C S). unfold content. destruct (source n) as [v|].
  - destruct C as [(a & -> & ->) _]. now intros [= <-].
  - destruct C as [-> _]. now intros [= <-].
Qed.
Lemma content_valid h (e : fevent) n : right h e n -> exists x, content h (fmsg e) = Got x.
Proof.
  intros (A & _). unfold content. destruct (fmsg e) as [a|]; [|eauto]. destruct (nth_error h a) eqn:E; [eauto|]. apply nth_error_None in E. specialize (A a eq_refl). lia.
Qed.

Lemma spoil_upd k (l : list (known V)) n : nth_error l k = Some n -> spoil k l = upd k (mkKnown (source n) true) l.
Proof. unfold spoil. now intros ->. Qed.
Lemma upd_self {A} (l : list A) k x : nth_error l k = Some x -> upd k x l = l.
Proof. revert k. induction l as [|y l IH]; intros [|k] H; cbn in *; try discriminate; [congruence|]. f_equal. auto. Qed.

(** getMessage in the middle of a call *)
Lemma get_in s (l : list (known V)) k e n oc h' e' r : all_right s l -> nth_error (fevs s) k = Some e -> nth_error l k = Some n -> honest oc -> get (fmem s) e oc = (h', e', r) ->
  match r with
  | Ok p => Forall2 (right h') (upd k e' (fevs s)) l /\ (forall c nc cr, right h' (mkF c p None nc cr) n)
  | Err Thrown => Forall2 (right h') (upd k e' (fevs s)) (if copy_failed oc (Failed Thrown) then spoil k l else l)
  | _ => True
  end.
Proof.
  intros F He Hn Ho Hg. pose proof (Forall2_nth _ _ _ _ _ _ F He Hn) as R. destruct (get_right _ _ _ _ _ _ _ R Ho Hg) as ((more & ->) & _ & _ & _ & Hr).
  pose proof (all_grow _ more _ _ F) as F'. destruct r as [p|[]]; auto.
  - destruct Hr as [H1 H2]. split; auto. eapply Forall2_upd_l; eauto.
  - destruct (copy_failed oc (Failed Thrown)); [|eapply Forall2_upd_l; eauto]. rewrite (spoil_upd _ _ _ Hn). apply Forall2_upd; auto.
Qed.
Lemma step_right s (l : list (known V)) o oc s' x : all_right s l -> honest oc -> fstep s o oc = (s', x) -> fatal x = false -> all_right s' (learn l o oc x).
Proof.
  intros F Ho E NF. unfold all_right in *.
  assert (forall n (e : fevent) v, right (fmem s ++ [v]) e n -> Forall2 (right (fmem s ++ [v])) (fevs s ++ [e]) (l ++ [n])) as Add1 by (intros; apply Forall2_app; auto using all_grow).
  assert (forall n (e : fevent), right (fmem s) e n -> Forall2 (right (fmem s)) (fevs s ++ [e]) (l ++ [n])) as Add0 by (intros; apply Forall2_app; auto).
  assert (forall c v nc cr, right (fmem s ++ [v]) (mkF c (Some (length (fmem s))) None nc cr) (mkKnown (Some v) false)) as New.
  { intros. split; [intros a [= <-]; rewrite app_length; cbn; lia|]. split; [discriminate|]. intros _. cbn. split; [|discriminate]. exists (length (fmem s)). split; auto. now rewrite nth_error_app2, Nat.sub_diag by lia. }
  assert (forall c nc cr, right (fmem s) (mkF c None None nc cr) (mkKnown None false)) as Nul by (intros; repeat split; cbn; auto; discriminate).
  destruct o as [c v|c|c|c [v|] nc cr|k c cr|k c|k c nc|j k|k|k]; cbn [fstep learn] in *.
  - injection E as <- <-. apply Add1, New.
  - injection E as <- <-. apply Add0, Nul.
  - injection E as <- <-. apply Add0, Nul.
  - injection E as <- <-. apply Add1, New.
  - injection E as <- <-. apply Add0, Nul.
  - destruct (nth_error (fevs s) k) as [e|] eqn:Ek; [|injection E as <- <-; discriminate]. injection E as <- <-. destruct (Forall2_nth_ex _ _ _ _ _ F Ek) as (n & -> & A & B & C). apply Add0.
    split; [auto|]. split; [discriminate|]. intros S. specialize (C S). cbn. destruct (source n); [destruct C; split; auto; discriminate|tauto].
  - destruct (nth_error (fevs s) k) as [e|] eqn:Ek; [|injection E as <- <-; discriminate]. destruct (Forall2_nth_ex _ _ _ _ _ F Ek) as (n & Hn & R).
    destruct (get (fmem s) e oc) as [[h' e'] r] eqn:Eg. pose proof (get_in _ _ _ _ _ _ _ _ _ F Ek Hn Ho Eg) as G. rewrite Hn. destruct r as [p|[]]; injection E as <- <-; cbn in NF; try discriminate; cbn [fmem fevs]; auto.
    destruct G as [G1 G2]. apply Forall2_app; auto.
  - destruct (nth_error (fevs s) k) as [e|] eqn:Ek; [|injection E as <- <-; discriminate]. destruct (Forall2_nth_ex _ _ _ _ _ F Ek) as (n & Hn & R).
    destruct (get (fmem s) e oc) as [[h' e'] r] eqn:Eg. pose proof (get_in _ _ _ _ _ _ _ _ _ F Ek Hn Ho Eg) as G. rewrite Hn. destruct r as [p|[]]; injection E as <- <-; cbn in NF; try discriminate; cbn [fmem fevs]; auto.
    destruct G as [G1 G2]. apply Forall2_app; auto.
  - destruct (nth_error (fevs s) j) as [old|] eqn:Ej; [|injection E as <- <-; discriminate].
    destruct (nth_error (fevs s) k) as [e|] eqn:Ek; [|injection E as <- <-; discriminate]. destruct (Forall2_nth_ex _ _ _ _ _ F Ek) as (n & Hn & R).
    destruct (get (fmem s) e oc) as [[h' e'] r] eqn:Eg. pose proof (get_in _ _ _ _ _ _ _ _ _ F Ek Hn Ho Eg) as G. rewrite Hn. destruct r as [p|[]]; injection E as <- <-; cbn in NF; try discriminate; cbn [fmem fevs]; auto.
    destruct G as [G1 G2]. apply Forall2_upd; auto.
  - destruct (nth_error (fevs s) k) as [e|] eqn:Ek; [|injection E as <- <-; discriminate]. destruct (Forall2_nth_ex _ _ _ _ _ F Ek) as (n & Hn & R).
    destruct (get (fmem s) e oc) as [[h' e'] r] eqn:Eg. pose proof (get_in _ _ _ _ _ _ _ _ _ F Ek Hn Ho Eg) as G. destruct r as [p|[]]; injection E as <- <-; cbn in NF; try discriminate; cbn [fmem fevs]; auto.
    destruct G as [G1 G2]. destruct (content_valid _ _ _ (G2 true true true)) as (y & Hy). cbn in Hy. rewrite Hy. exact G1.
  - destruct (nth_error (fevs s) k) as [e|] eqn:Ek; injection E as <- <-; auto.
Qed.
(** what getMessage and getConstMessage return *)
Lemma step_got s (l : list (known V)) o oc s' v k n : all_right s l -> honest oc -> fstep s o oc = (s', Got v) -> o = Get k \/ o = GetConst k -> nth_error l k = Some n -> spoilt n = false -> v = source n.
Proof.
  intros F Ho E [-> | ->] Hn S; cbn [fstep] in E; (destruct (nth_error (fevs s) k) as [e|] eqn:Ek; [|discriminate]).
  - destruct (get (fmem s) e oc) as [[h' e'] r] eqn:Eg. pose proof (get_in _ _ _ _ _ _ _ _ _ F Ek Hn Ho Eg) as G. destruct r as [p|[]]; try discriminate. injection E as <- E. destruct G as [_ G]. eapply (content_of h' (mkF true p None true true)); eauto.
  - injection E as <- E. eapply content_of; eauto. eapply Forall2_nth; eauto.
Qed.

(** no other failures than exceptions *)
Definition whole (e : fevent) : Prop := factory e = true /\ fmsg e <> None.
Lemma get_whole h (e : fevent) n oc h' e' r : right h e n -> honest oc -> whole e -> get h e oc = (h', e', r) ->
  whole e' /\ match r with Ok p => p <> None | Err x => x = Thrown end.
Proof.
  intros R Ho [W1 W2] Hg. destruct (get_right _ _ _ _ _ _ _ R Ho Hg) as (_ & E1 & _ & E2 & Hr). split; [split; congruence|]. destruct r as [p|[]]; try congruence; try tauto.
  revert Hg. unfold get. destruct (fconst e || negb (fneed e)); [congruence|]. destruct (fcopied e); [intros [= <- <- <-]; discriminate|]. rewrite W1. cbn [negb].
  destruct (created oc); unfold honest in *; try discriminate; destruct (fmsg e); try congruence; destruct (nth_error _ _); try discriminate; destruct (assigned oc); try discriminate; intros [= _ _ <-]; discriminate.
Qed.
Lemma step_whole s (l : list (known V)) o oc s' x : all_right s l -> honest oc -> proper o -> Forall whole (fevs s) -> fstep s o oc = (s', x) ->
  (forall k, In k (uses o) -> k < length l) -> fatal x = false /\ Forall whole (fevs s').
Proof.
  intros F Ho P W E U.
  assert (forall k, In k (uses o) -> exists e n, nth_error (fevs s) k = Some e /\ nth_error l k = Some n /\ right (fmem s) e n /\ whole e) as Ev.
  { intros k Hk. specialize (U k Hk). unfold all_right in F. rewrite <- (Forall2_length _ _ _ F) in U. destruct (nth_error (fevs s) k) as [e|] eqn:Ek; [|apply nth_error_None in Ek; lia].
    destruct (Forall2_nth_ex _ _ _ _ _ F Ek) as (n & Hn & R). exists e, n. split; auto. split; auto. split; auto. eapply Forall_forall; [exact W|]. eapply nth_error_In; eauto. }
  assert (forall k (e : fevent), whole e -> Forall whole (upd k e (fevs s))) as Wu.
  { intros k e We. clear -W We. revert k. induction W; intros [|k]; cbn; constructor; auto. }
  assert (forall k (e : fevent) (es : list fevent), whole e -> Forall whole es -> Forall whole (upd k e es)) as Wu2.
  { clear. intros k e es We W. revert k. induction W; intros [|k]; cbn; constructor; auto. }
  destruct o as [c v|c|c|c [v|] nc [|]|k c [|]|k c|k c nc|j k|k|k]; cbn [proper] in P; try tauto; cbn [uses] in Ev; cbn [fstep] in E.
  - injection E as <- <-. split; auto. apply Forall_app; split; auto. constructor; auto. split; [auto|discriminate].
  - injection E as <- <-. split; auto. apply Forall_app; split; auto. constructor; auto. split; [auto|discriminate].
  - destruct (Ev k) as (e & n & He & _ & _ & We); [cbn; auto|]. rewrite He in E. injection E as <- <-. split; auto. apply Forall_app; split; auto. constructor; auto. split; [auto|apply We].
  - destruct (Ev k) as (e & n & He & _ & R & We); [cbn; auto|]. rewrite He in E. destruct (get (fmem s) e oc) as [[h' e'] r] eqn:Eg. destruct (get_whole _ _ _ _ _ _ _ R Ho We Eg) as [We' Hr].
    destruct r as [p|y]; injection E as <- <-; [|subst y; split; auto; apply Wu; auto]. split; auto. cbn. apply Forall_app. split; auto. constructor; auto. split; auto. cbn. apply We.
  - destruct (Ev k) as (e & n & He & _ & R & We); [cbn; auto|]. rewrite He in E. destruct (get (fmem s) e oc) as [[h' e'] r] eqn:Eg. destruct (get_whole _ _ _ _ _ _ _ R Ho We Eg) as [We' Hr].
    destruct r as [p|y]; injection E as <- <-; [|subst y; split; auto; apply Wu; auto]. split; auto. cbn. apply Forall_app. split; auto. constructor; auto. split; auto. cbn. apply We.
  - destruct (Ev j) as (old & n0 & Hold & _); [cbn; auto|]. rewrite Hold in E.
    destruct (Ev k) as (e & n & He & _ & R & We); [cbn; auto|]. rewrite He in E. destruct (get (fmem s) e oc) as [[h' e'] r] eqn:Eg. destruct (get_whole _ _ _ _ _ _ _ R Ho We Eg) as [We' Hr].
    destruct r as [p|y]; injection E as <- <-; [|subst y; split; auto; apply Wu; auto]. split; auto. cbn. apply Wu2; auto. split; auto. cbn. apply We.
  - destruct (Ev k) as (e & n & He & Hn & R & We); [cbn; auto|]. rewrite He in E. destruct (get (fmem s) e oc) as [[h' e'] r] eqn:Eg. destruct (get_whole _ _ _ _ _ _ _ R Ho We Eg) as [We' Hr].
    destruct r as [p|y]; injection E as <- <-; [|subst y; split; auto; apply Wu; auto]. split; [|apply Wu; auto].
    pose proof (get_in _ _ _ _ _ _ _ _ _ F He Hn Ho Eg) as [_ G2]. destruct (content_valid _ _ _ (G2 true true true)) as (y & Hy). cbn in Hy. now rewrite Hy.
  - destruct (Ev k) as (e & n & He & _ & R & We); [cbn; auto|]. rewrite He in E. injection E as <- <-. split; auto. destruct (content_valid _ _ _ R) as (y & ->). reflexivity.
Qed.

(** ** Signals *)
Fixpoint fnode_ind' (P : fnode -> Prop) (HU : forall f, P (User f)) (HF : forall l, Forall P l -> P (Filter l)) (x : fnode) : P x :=
  match x with
  | User f => HU f
  | Filter l => HF l ((fix go l : Forall P l := match l with [] => Forall_nil P | y :: t => Forall_cons y (fnode_ind' P HU HF y) (go t) end) l)
  end.
(** the callbacks of a filter in turn *)
Fixpoint fcalls (d : V) (h : list V) (e : fevent) (ocs : list (outcome V)) (l : list fnode) : list V * list (outcome V) * list (option V) * option err :=
  match l with
  | [] => (h, ocs, [], None)
  | y :: t => let '(h1, ocs1, o1, r1) := fcall d h e y ocs in
              match r1 with
              | Some er => (h1, ocs1, o1, Some er)
              | None => let '(h2, ocs2, o2, r2) := fcalls d h1 e ocs1 t in (h2, ocs2, o1 ++ o2, r2)
              end
  end.
Definition passed (e : fevent) (l : list fnode) : fevent := mkF true (fmsg e) None ((1 <? length l) || fneed e) (factory e).
Lemma fcall_filter d h e l ocs : fcall d h e (Filter l) ocs = fcalls d h (passed e l) ocs l.
Proof.
  cbn [fcall]. fold (passed e l). generalize (passed e l). intros e'. revert h ocs. induction l as [|y t IH]; intros h ocs; cbn [fcalls]; auto.
  destruct (fcall d h e' y ocs) as [[[h1 ocs1] o1] [er|]]; auto. now rewrite IH.
Qed.

(** a message that is not null *)
Lemma fparam_sees (h : list V) e f oc a v : fmsg e = Some a -> nth_error h a = Some v -> factory e = true -> honest oc ->
  exists h', (exists more, h' = h ++ more) /\ (fparam h e f oc = (h', Got (Some v)) \/ fparam h e f oc = (h', Failed Thrown) /\ mutable f = true /\ ~ nothing_fails oc).
Proof.
  intros E1 E2 E3 Ho. assert (content h (Some a) = Got (Some v)) as C by (cbn; now rewrite E2).
  assert (a < length h) as La by (apply nth_error_Some; congruence).
  destruct f; cbn [fparam mutable]; rewrite ?E1, ?C; try (exists h; split; [exists []; now rewrite app_nil_r|left; reflexivity]);
  (unfold get; cbn [fconst fmsg fneed fcopied factory orb negb]; rewrite E3; cbn [negb]; destruct (fneed e); cbn [negb];
   [|exists h; rewrite C; split; [exists []; now rewrite app_nil_r|left; reflexivity]];
   destruct (created oc) as [d| | |] eqn:Ec; unfold honest in Ho; rewrite Ec in Ho; try tauto;
   [rewrite nth_error_app1, E2 by auto; destruct (assigned oc) as [p|] eqn:Ea; rewrite upd_last;
    [exists (h ++ [p]); split; [eauto|right; split; auto; split; auto; intros [_ N]; congruence]
    |exists (h ++ [v]); split; [eauto|left; cbn; rewrite nth_error_app2, Nat.sub_diag by lia; reflexivity]]
   |exists h; split; [exists []; now rewrite app_nil_r|right; split; auto; split; auto; intros [[d N] _]; congruence]]).
Qed.
Definition fine_call (d : V) (a : nat) (v : V) (x : fnode) : Prop := forall h e ocs h' ocs' os r,
  fmsg e = Some a -> nth_error h a = Some v -> factory e = true -> Forall honest ocs -> fcall d h e x ocs = (h', ocs', os, r) ->
  nth_error h' a = Some v /\ Forall honest ocs' /\ (Forall nothing_fails ocs -> Forall nothing_fails ocs') /\ os = repeat (Some v) (length os) /\
  match r with None => length os = length (users x) | Some er => er = Thrown /\ length os < length (users x) /\ ~ Forall nothing_fails ocs end.
Lemma fcalls_sees d a v l : Forall (fine_call d a v) l -> forall h e ocs h' ocs' os r,
  fmsg e = Some a -> nth_error h a = Some v -> factory e = true -> Forall honest ocs -> fcalls d h e ocs l = (h', ocs', os, r) ->
  nth_error h' a = Some v /\ Forall honest ocs' /\ (Forall nothing_fails ocs -> Forall nothing_fails ocs') /\ os = repeat (Some v) (length os) /\
  match r with None => length os = length (flat_map users l) | Some er => er = Thrown /\ length os < length (flat_map users l) /\ ~ Forall nothing_fails ocs end.
Proof.
  induction 1 as [|y t Hy _ IH]; intros h e ocs h' ocs' os r E1 E2 E3 Ho E; cbn [fcalls] in E.
  - injection E as <- <- <- <-. cbn. auto.
  - destruct (fcall d h e y ocs) as [[[h1 ocs1] o1] r1] eqn:Ec. destruct (Hy _ _ _ _ _ _ _ E1 E2 E3 Ho Ec) as (A1 & A2 & A3 & A4 & A5). cbn [flat_map]. rewrite app_length. destruct r1 as [er|].
    + injection E as <- <- <- <-. destruct A5 as (A5 & A6 & A7). split; [exact A1|]. split; [exact A2|]. split; [exact A3|]. split; [exact A4|]. split; [exact A5|]. split; [lia|exact A7].
    + destruct (fcalls d h1 e ocs1 t) as [[[h2 ocs2] o2] r2] eqn:E2'. injection E as <- <- <- <-. destruct (IH _ _ _ _ _ _ _ E1 A1 E3 A2 E2') as (B1 & B2 & B3 & B4 & B5).
      split; auto. split; auto. split; [auto|]. rewrite app_length, repeat_app, <- A4, <- B4. split; auto. destruct r2 as [er|]; [|lia]. destruct B5 as (B5 & B6 & B7). split; auto. split; [lia|]. auto.
Qed.
Lemma fcall_sees d a v x : fine_call d a v x.
Proof.
  induction x as [f|l IH] using fnode_ind'; intros h e ocs h' ocs' os r E1 E2 E3 Ho E.
  - cbn [fcall] in E. destruct (next d ocs) as [oc ocs1] eqn:En.
    assert (honest oc /\ Forall honest ocs1 /\ (Forall nothing_fails ocs -> nothing_fails oc /\ Forall nothing_fails ocs1)) as (Hc & Hcs & Hf).
    { destruct ocs as [|x t]; cbn in En; injection En as <- <-; [repeat split; auto; cbn; eauto|]. inversion Ho; subst. split; auto. split; auto. intros N. now inversion N. }
    destruct (fparam_sees h e f oc a v E1 E2 E3 Hc) as (h2 & (more & ->) & [Hp|(Hp & Hm & Hn)]); rewrite Hp in E; injection E as <- <- <- <-.
    + split; [rewrite nth_error_app1; auto; apply nth_error_Some; congruence|]. split; auto. split; [tauto|]. split; reflexivity.
    + split; [rewrite nth_error_app1; auto; apply nth_error_Some; congruence|]. split; auto. split; [tauto|]. split; [reflexivity|]. cbn. split; auto. split; [lia|]. tauto.
  - rewrite fcall_filter in E. cbn [users]. eapply (fcalls_sees d a v l IH h (passed e l)); eauto.
Qed.

(** null *)
Definition null_call (d : V) (x : fnode) : Prop := forall h e, fmsg e = None ->
  (takes_null (fneed e) x -> exists h', fcall d h e x [] = (h', [], repeat None (length (users x)), None)) /\
  (~ takes_null (fneed e) x -> exists h' os er, fcall d h e x [] = (h', [], os, Some er) /\ (er = UB \/ er = AssertFailed)).
Lemma takes_null_dec c x : takes_null c x \/ ~ takes_null c x.
Proof.
  revert c. induction x as [f|l IH] using fnode_ind'; intros c; cbn [takes_null].
  - destruct (nullable f), (mutable f), c; (left; split; [reflexivity|solve [auto|discriminate]]) || (right; intros [A B]; try discriminate; specialize (B eq_refl); discriminate).
  - generalize ((1 <? length l) || c). intros b. induction IH as [|y t Hy _ IHt]; cbn; [auto|]. destruct (Hy b), IHt; tauto.
Qed.
Lemma fcalls_null d l : Forall (null_call d) l -> forall h e, fmsg e = None ->
  (fold_right (fun y P => takes_null (fneed e) y /\ P) True l -> exists h', fcalls d h e [] l = (h', [], repeat None (length (flat_map users l)), None)) /\
  (~ fold_right (fun y P => takes_null (fneed e) y /\ P) True l -> exists h' os er, fcalls d h e [] l = (h', [], os, Some er) /\ (er = UB \/ er = AssertFailed)).
Proof.
  induction 1 as [|y t Hy _ IH]; intros h e E; cbn [fold_right fcalls flat_map].
  - split; [eauto|tauto].
  - destruct (Hy h e E) as [A B]. split.
    + intros [C D]. destruct (A C) as (h1 & ->). destruct (IH h1 e E) as [IH1 _]. destruct (IH1 D) as (h2 & ->). rewrite app_length, repeat_app. eauto.
    + intros N. destruct (takes_null_dec (fneed e) y) as [C|C].
      * destruct (A C) as (h1 & ->). destruct (IH h1 e E) as [_ IH2]. destruct IH2 as (h2 & os & er & -> & Her); [tauto|]. eauto 8.
      * destruct (B C) as (h1 & os & er & -> & Her). eauto 8.
Qed.
Lemma fcall_null d x : null_call d x.
Proof.
  induction x as [f|l IH] using fnode_ind'; intros h e E.
  - cbn [fcall next takes_null]. destruct f; cbn [fparam nullable mutable users length repeat]; rewrite E; cbn [content];
      try (split; [intros [? ?]; discriminate|intros _; eauto 8]); try (split; [eauto|intros N; exfalso; apply N; split; [auto|discriminate]]);
      (unfold get; cbn [fconst fmsg fneed fcopied factory orb negb created]; destruct (fneed e); cbn [negb];
       [split; [intros [_ N]; specialize (N eq_refl); discriminate|intros _; destruct (factory e); cbn; eauto 10]|split; [cbn; eauto|intros N; exfalso; apply N; auto]]).
  - rewrite fcall_filter. cbn [takes_null users]. apply (fcalls_null d l IH h (passed e l)). exact E.
Qed.
End Proofs.
