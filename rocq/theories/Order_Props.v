(** Property C89: comparing events.  [ev_lt less a b], [ev_eq a b] and [ev_ne a b] are a < b,
    a == b and a != b; they return a boolean or throw. *)
From Coq Require Import List Arith ZArith Lia Bool.
From Verif Require Import Base RclTime Event_Model Event_Spec Event_Proofs Order_Model Order_Spec.
Import ListNotations.

Section Order.
Context (less : nat -> nat -> bool) (HP : pointer_order less).
Notation event := (event time).

Lemma time_ext (s t : time) : ns s = ns t -> clk s = clk t -> s = t.
Proof. destruct s, t; cbn. congruence. Qed.

(** The result of each operator. *)
Lemma ev_eq_cases (a b : event) :
  (msg a <> msg b /\ ev_eq a b = Ok false /\ ev_lt less a b = Ok (less (msg a) (msg b))) \/
  (msg a = msg b /\ clk (receipt a) <> clk (receipt b) /\ ev_eq a b = Err Thrown /\ ev_lt less a b = Err Thrown) \/
  (msg a = msg b /\ clk (receipt a) = clk (receipt b) /\
   ev_eq a b = Ok ((ns (receipt a) =? ns (receipt b))%Z && Bool.eqb (need a) (need b)) /\
   ev_lt less a b = Ok (if (ns (receipt a) =? ns (receipt b))%Z then negb (need a) && need b else (ns (receipt a) <? ns (receipt b))%Z)).
Proof.
  unfold ev_eq, ev_lt, time_ne, time_eq, time_lt. destruct (Nat.eqb_spec (msg a) (msg b)) as [H|H]; cbn [negb]; [|left; auto]. right.
  destruct (clock_eqb_spec (clk (receipt a)) (clk (receipt b))) as [H'|H']; cbn [bind]; [right|left; auto].
  repeat split; auto. destruct (_ =? _)%Z; reflexivity.
Qed.

(** a == b exactly for the same message object, the same receipt time and the same copy flag. *)
Theorem C89_equality (a b : event) :
  holds (ev_eq a b) <-> msg a = msg b /\ receipt a = receipt b /\ need a = need b.
Proof.
  unfold holds. destruct (ev_eq_cases a b) as [(H1 & H2 & _)|[(H1 & H2 & H3 & _)|(H1 & H2 & H3 & _)]].
  - rewrite H2. split; [discriminate|]. intros (? & _); contradiction.
  - rewrite H3. split; [discriminate|]. intros (_ & H & _). congruence.
  - rewrite H3. split.
    + intros H. injection H as H. apply andb_prop in H as [H4 H5]. apply Z.eqb_eq in H4. apply eqb_prop in H5. auto using time_ext.
    + intros (_ & Ht & Hn). rewrite Ht, Hn, Z.eqb_refl, eqb_reflx. reflexivity.
Qed.

(** Every comparison of two events throws, or none: exactly for the same message with receipt
    times of different clocks. *)
Theorem C89_throws (a b : event) :
  let different_clocks := msg a = msg b /\ clk (receipt a) <> clk (receipt b) in
  (throws (ev_eq a b) <-> different_clocks) /\ (throws (ev_ne a b) <-> different_clocks) /\
  (throws (ev_lt less a b) <-> different_clocks) /\ (throws (ev_lt less b a) <-> different_clocks).
Proof.
  cbv zeta. unfold throws, ev_ne.
  destruct (ev_eq_cases a b) as [(H1 & H2 & H3)|[(H1 & H2 & H3 & H4)|(H1 & H2 & H3 & H4)]];
    destruct (ev_eq_cases b a) as [(G1 & G2 & G3)|[(G1 & G2 & G3 & G4)|(G1 & G2 & G3 & G4)]];
    try congruence; rewrite ?H2, ?H3, ?H4, ?G3, ?G4; cbn [bind]; repeat split; try discriminate; try tauto; intros (? & ?); congruence.
Qed.

(** a != b is the negation of a == b. *)
Theorem C89_inequality (a b : event) : holds (ev_ne a b) <-> fails (ev_eq a b).
Proof. unfold holds, fails, ev_ne. destruct (ev_eq a b) as [[]|]; cbn; split; congruence. Qed.

(** Without mixed clocks exactly one of a < b, a == b, b < a holds. *)
Theorem C89_trichotomy (a b : event) :
  msg a <> msg b \/ clk (receipt a) = clk (receipt b) ->
  (holds (ev_lt less a b) /\ fails (ev_eq a b) /\ fails (ev_lt less b a)) \/
  (fails (ev_lt less a b) /\ holds (ev_eq a b) /\ fails (ev_lt less b a)) \/
  (fails (ev_lt less a b) /\ fails (ev_eq a b) /\ holds (ev_lt less b a)).
Proof.
  unfold holds, fails. intros Hc.
  destruct (ev_eq_cases a b) as [(H1 & H2 & H3)|[(H1 & H2 & H3 & H4)|(H1 & H2 & H3 & H4)]];
    destruct (ev_eq_cases b a) as [(G1 & G2 & G3)|[(G1 & G2 & G3 & G4)|(G1 & G2 & G3 & G4)]]; try congruence; try tauto.
  - rewrite H2, H3, G3. destruct HP as [I T P].
    destruct (P _ _ H1) as [H|H]; rewrite H.
    + left. repeat split. destruct (less (msg b) (msg a)) eqn:H'; [|reflexivity]. rewrite <- (I (msg a)). symmetry. f_equal. eauto.
    + right; right. repeat split. destruct (less (msg a) (msg b)) eqn:H'; [|reflexivity]. rewrite <- (I (msg a)). symmetry. f_equal. eauto.
  - rewrite H3, H4, G4. rewrite (Z.eqb_sym (ns (receipt b))). destruct (Z.eqb_spec (ns (receipt a)) (ns (receipt b))) as [Hz|Hz].
    + destruct (need a), (need b); cbn; auto.
    + cbn [andb]. destruct (Z.ltb_spec (ns (receipt a)) (ns (receipt b))), (Z.ltb_spec (ns (receipt b)) (ns (receipt a))); try lia; auto.
Qed.

(** Events of different messages are ordered as the addresses; events of one message by receipt
    time, and events received at the same time by the copy flag. *)
Theorem C89_direction (a b : event) :
  (msg a <> msg b -> (holds (ev_lt less a b) <-> less (msg a) (msg b) = true)) /\
  (msg a = msg b -> clk (receipt a) = clk (receipt b) ->
     (holds (ev_lt less a b) <->
      (ns (receipt a) < ns (receipt b))%Z \/ (receipt a = receipt b /\ need a = false /\ need b = true))).
Proof.
  unfold holds. destruct (ev_eq_cases a b) as [(H1 & H2 & H3)|[(H1 & H2 & H3 & H4)|(H1 & H2 & H3 & H4)]]; (split; [try congruence|try congruence]).
  - intros _. rewrite H3. split; congruence.
  - intros _ _. rewrite H4. destruct (Z.eqb_spec (ns (receipt a)) (ns (receipt b))) as [E|E].
    + split.
      * intros H. injection H as H. apply andb_prop in H as [Ha Hb]. apply negb_true_iff in Ha. right. auto using time_ext.
      * intros [H|(_ & -> & ->)]; [lia|reflexivity].
    + split.
      * intros H. injection H as H. apply Z.ltb_lt in H. auto.
      * intros [H|(H & _)]; [|congruence]. apply Z.ltb_lt in H. now rewrite H.
Qed.

(** < is irreflexive and transitive, whatever the clocks. *)
Theorem C89_irreflexive (a : event) : fails (ev_lt less a a).
Proof.
  destruct (C89_trichotomy a a (or_intror eq_refl)) as [(_ & H & _)|[(H & _)|(H & _)]]; auto.
  exfalso. assert (HE : holds (ev_eq a a)) by (now apply C89_equality). unfold holds, fails in *. congruence.
Qed.
Theorem C89_transitive (a b c : event) :
  holds (ev_lt less a b) -> holds (ev_lt less b c) -> holds (ev_lt less a c).
Proof.
  unfold holds. destruct HP as [I T P].
  destruct (ev_eq_cases a b) as [(H1 & _ & H3)|[(H1 & H2 & H3 & H4)|(H1 & H2 & H3 & H4)]];
    destruct (ev_eq_cases b c) as [(G1 & _ & G3)|[(G1 & G2 & G3 & G4)|(G1 & G2 & G3 & G4)]];
    destruct (ev_eq_cases a c) as [(K1 & _ & K3)|[(K1 & K2 & K3 & K4)|(K1 & K2 & K3 & K4)]];
    rewrite ?H3, ?H4, ?G3, ?G4, ?K3, ?K4; intros A B; try congruence.
  - injection A as A. injection B as B. f_equal. eauto.
  - injection A as A. injection B as B. assert (less (msg a) (msg a) = true) by (rewrite K1 at 2; eauto). rewrite I in *. discriminate.
  - injection A as A. injection B as B. assert (less (msg a) (msg a) = true) by (rewrite K1 at 2; eauto). rewrite I in *. discriminate.
  - injection A as A. injection B as B. f_equal.
    destruct (Z.eqb_spec (ns (receipt a)) (ns (receipt b))); destruct (Z.eqb_spec (ns (receipt b)) (ns (receipt c)));
      destruct (Z.eqb_spec (ns (receipt a)) (ns (receipt c))); try lia; try (apply Z.ltb_lt);
      repeat match goal with H : (_ <? _)%Z = true |- _ => apply Z.ltb_lt in H end; try lia.
    destruct (need a), (need b), (need c); cbn in *; congruence.
Qed.

(** == is an equivalence. *)
Theorem C89_equivalence :
  (forall a, holds (ev_eq a a)) /\ (forall a b, holds (ev_eq a b) -> holds (ev_eq b a)) /\
  (forall a b c, holds (ev_eq a b) -> holds (ev_eq b c) -> holds (ev_eq a c)).
Proof. repeat split; intros *; rewrite ?C89_equality; intuition congruence. Qed.

(** Equal events compare alike with every other event: < only looks at what == compares. *)
Theorem C89_congruence (a a' b b' : event) :
  holds (ev_eq a a') -> holds (ev_eq b b') -> ev_lt less a b = ev_lt less a' b' /\ ev_eq a b = ev_eq a' b'.
Proof.
  rewrite !C89_equality. intros (A1 & A2 & A3) (B1 & B2 & B3). unfold ev_lt, ev_eq. now rewrite A1, A2, A3, B1, B2, B3.
Qed.
End Order.

(** A copy of a MessageEvent<M const>, or of a MessageEvent<M> that does not demand copies, is
    equal to its source, of whatever type it is ... *)
Theorem C89_copy_equal_partial {V} (h : heap V) (e : event time) c h' e' x :
  const e = true \/ need e = false -> copy_event h e c = Ok (h', e', x) -> holds (ev_eq e' x) /\ e' = e /\ h' = h.
Proof.
  intros HC. unfold copy_event, get_message.
  replace (const e || negb (need e)) with true by (destruct HC as [-> | ->]; [reflexivity|now rewrite orb_true_r]).
  cbn [bind]. intros H. injection H as <- <- <-. split; [|auto]. apply (C89_equality Nat.ltb). auto.
Qed.

(** ... and stays so for ever, in any program that goes on from there (no operation changes what ==
    compares). *)
Theorem C89_stable {V} (h1 h2 : list (op V time)) s1 r1 s2 r2 k e1 e2 :
  run init h1 = Ok (s1, r1) -> run s1 h2 = Ok (s2, r2) ->
  nth_error (evs s1) k = Some e1 -> nth_error (evs s2) k = Some e2 -> holds (ev_eq e1 e2).
Proof.
  intros H1 H2 H3 H4. destruct (run_good h1 s1 r1 H1) as [HG _]. destruct (run_extends h2 s1 s2 r2 HG H2) as [_ HE].
  destruct (HE k e1 H3) as (e & He & A1 & A2 & A3 & A4 & A5). rewrite H4 in He. injection He as <-. apply (C89_equality Nat.ltb). auto.
Qed.

(** A copy of a MessageEvent<M> demanding copies differs from its source: copying the event
    copies the message. *)
Theorem C89_copy_equal_refuted {V} (h : heap V) (e : event time) c v :
  const e = false -> need e = true -> copied e = None -> nth_error h (msg e) = Some v ->
  exists h' e' x, copy_event h e c = Ok (h', e', x) /\ holds (ev_ne e' x).
Proof.
  intros Hc Hn Hk Hv. unfold copy_event, get_message. rewrite Hc, Hn, Hk. cbn [orb negb bind]. unfold read. rewrite Hv. cbn [bind].
  eexists _, _, _. split; [reflexivity|]. unfold holds, ev_ne, ev_eq. cbn.
  assert (msg e < length h) by (apply nth_error_Some; congruence).
  destruct (Nat.eqb_spec (msg e) (length h)); [lia|reflexivity].
Qed.

(** Concrete cases. *)
Example order_exists : pointer_order Nat.ltb.
Proof. constructor; intros *; rewrite ?Nat.ltb_irrefl, ?Nat.ltb_lt; lia. Qed.
Example order_reversed : pointer_order (fun a b => Nat.ltb b a).
Proof. constructor; intros *; rewrite ?Nat.ltb_irrefl, ?Nat.ltb_lt; lia. Qed.
Definition example_event (m : nat) (t : Z) (c : clock) (nc : bool) : event time := mkEvent true m None (mkTime t c) nc.
Example order_example :
  ev_lt Nat.ltb (example_event 0 9 RosClock true) (example_event 1 5 SystemClock false) = Ok true /\
  ev_lt Nat.ltb (example_event 1 5 RosClock true) (example_event 1 9 RosClock false) = Ok true /\
  ev_lt Nat.ltb (example_event 1 5 RosClock false) (example_event 1 5 RosClock true) = Ok true /\
  ev_eq (example_event 1 5 RosClock true) (example_event 1 5 RosClock true) = Ok true /\
  ev_lt Nat.ltb (example_event 1 5 RosClock true) (example_event 1 5 SystemClock true) = Err Thrown.
Proof. repeat split. Qed.
Example copy_example :
  copy_event [7] (example_event 0 5 RosClock true) true = Ok ([7], example_event 0 5 RosClock true, example_event 0 5 RosClock true).
Proof. reflexivity. Qed.
Example copy_differs_example :
  let e := mkEvent false 0 None (mkTime 5 RosClock) true in
  exists e' x, copy_event [7] e true = Ok ([7; 7], e', x) /\ ev_ne e' x = Ok true.
Proof. eexists _, _. split; reflexivity. Qed.

Print Assumptions C89_equality.
Print Assumptions C89_throws.
Print Assumptions C89_inequality.
Print Assumptions C89_trichotomy.
Print Assumptions C89_direction.
Print Assumptions C89_irreflexive.
Print Assumptions C89_transitive.
Print Assumptions C89_equivalence.
Print Assumptions C89_congruence.
Print Assumptions C89_copy_equal_partial.
Print Assumptions C89_stable.
Print Assumptions C89_copy_equal_refuted.
