(** Property C85: messages that arrive while a filter is being constructed. *)
From Coq Require Import List Arith ZArith Lia Bool.
From Verif Require Import Base Ctor_Model Ctor_Spec.
From Verif Require Exact_Model Eps_Model Approx_Model Py_Model.
Import ListNotations.

Section Props.
Context {S E O : Type} (add : S -> nat -> E -> res (S * list O)) (needs : S -> nat -> E -> list nat) (missing : err).
Notation run := (Ctor_Model.run add needs missing).
Notation added := (added (fun i s e => add s i e)).

Lemma mem_In k l : mem k l = true <-> In k l.
Proof.
  unfold mem. rewrite existsb_exists. split.
  - intros (x & H & E1). apply Nat.eqb_eq in E1. now subst.
  - intros H. exists k. split; auto. apply Nat.eqb_refl.
Qed.

(** once all members are set, what arrives is added *)
Lemma run_ready l : forall s, (forall y i e, exists y' o, add y i e = Ok (y', o)) ->
  (forall y i e a, In a (needs y i e) -> In a (set s)) ->
  exists s' o r, run s l = Ok (s', o) /\ received (conn s) l r /\ added (inner s) r (inner s') o.
Proof.
  induction l as [|x l IH]; intros s HT HN.
  - exists s, [], []. repeat split; constructor.
  - destruct x as [i|a|i e]; cbn [Ctor_Model.run step bind].
    + destruct (IH (mkState (i :: conn s) (set s) (inner s)) HT HN) as (s' & o & r & H1 & H2 & H3). rewrite H1. cbn.
      exists s', o, r. repeat split; auto. now constructor.
    + destruct (IH (mkState (conn s) (a :: set s) (inner s)) HT) as (s' & o & r & H1 & H2 & H3).
      { intros y i e b Hb. right. eapply HN; eauto. }
      rewrite H1. cbn. exists s', o, r. repeat split; auto. now constructor.
    + destruct (mem i (conn s)) eqn:M.
      * assert (F : forallb (fun a => mem a (set s)) (needs (inner s) i e) = true).
        { apply forallb_forall. intros a Ha. apply mem_In. eapply HN; eauto. }
        rewrite F. destruct (HT (inner s) i e) as (y & o1 & HA). rewrite HA. cbn [bind].
        destruct (IH (mkState (conn s) (set s) y) HT HN) as (s' & o & r & H1 & H2 & H3). rewrite H1. cbn.
        exists s', (o1 ++ o), ((i, e) :: r). repeat split; auto.
        -- constructor; auto. now apply mem_In.
        -- econstructor; eauto.
      * destruct (IH s HT HN) as (s' & o & r & H1 & H2 & H3). cbn [bind]. rewrite H1. cbn.
        exists s', o, r. repeat split; auto. constructor; auto. intros X. apply mem_In in X. congruence.
Qed.

(** C85: a filter whose constructor connects its inputs last works from the first message on: whatever arrives
    whenever during the construction, the result is the one of adding the messages that arrive on connected
    inputs to the constructed filter. *)
Theorem C85_inputs_last (sets inputs : list nat) (s0 : S) l :
  (forall y i e, exists y' o, add y i e = Ok (y', o)) ->
  (forall y i e a, In a (needs y i e) -> In a sets) ->
  constructing (map Set_ sets ++ map Connect inputs) l ->
  exists s' o r, run (start s0) l = Ok (s', o) /\ received [] l r /\ added s0 r (inner s') o.
Proof.
  intros HT HN (rest & HC). unfold start.
  assert (G : forall sets l (done : list nat) rest, (forall a, (exists y i e, In a (needs y i e)) -> In a sets \/ In a done) ->
     map Set_ sets ++ map Connect inputs = filter (fun x => match x with Arrive _ _ => false | _ => true end) l ++ rest ->
     exists s' o r, run (mkState [] done s0) l = Ok (s', o) /\ received [] l r /\ added s0 r (inner s') o).
  { clear l rest HC HN sets. induction sets as [|a sets IHs]; intros l done rest HN HC.
    - destruct (run_ready l (mkState [] done s0)) as (s' & o & r & H1 & H2 & H3); auto.
      + intros y i e a Ha. cbn. destruct (HN a) as [[]|]; auto. eauto.
      + exists s', o, r. auto.
    - induction l as [|x l IHl].
      + exists (mkState [] done s0), [], []. repeat split; constructor.
      + destruct x as [i|b|i e].
        * cbn in HC. discriminate.
        * cbn in HC. injection HC as <- HC. destruct (IHs l (a :: done) rest) as (s' & o & r & H1 & H2 & H3); auto.
          { intros b Hb. destruct (HN b Hb) as [[->|X]|X]; auto; right; [now left|now right]. }
          cbn. rewrite H1. cbn. exists s', o, r. repeat split; auto. now constructor.
        * cbn in HC. destruct (IHl HC) as (s' & o & r & H1 & H2 & H3). cbn. rewrite H1. cbn.
          exists s', o, r. repeat split; auto. constructor; auto. }
  apply (G sets l [] rest); auto. intros a (y & i & e & H). left. eauto.
Qed.

(** The same for every constructor if nothing arrives before it has returned. *)
Theorem C85_constructed_first_partial (ctor : list (act E)) (s0 : S) (ms : list (nat * E)) :
  (forall y i e, exists y' o, add y i e = Ok (y', o)) ->
  (forall x, In x ctor -> forall i e, x <> Arrive i e) ->
  (forall y i e a, In a (needs y i e) -> In (Set_ a) ctor) ->
  (forall i e, In (i, e) ms -> In (Connect i) ctor) ->
  exists s' o, run (start s0) (ctor ++ map (fun x => Arrive (fst x) (snd x)) ms) = Ok (s', o) /\ added s0 ms (inner s') o.
Proof.
  intros HT HA HN HM. unfold start.
  assert (G : forall ctor c d, (forall x, In x ctor -> forall i e, x <> Arrive i e) ->
     (forall y i e a, In a (needs y i e) -> In (Set_ a) ctor \/ In a d) -> (forall i e, In (i, e) ms -> In (Connect i) ctor \/ In i c) ->
     exists s' o, run (mkState c d s0) (ctor ++ map (fun x => Arrive (fst x) (snd x)) ms) = Ok (s', o) /\ added s0 ms (inner s') o).
  { clear ctor HA HN HM. induction ctor as [|x ctor IH]; intros c d HA HN HM.
    - destruct (run_ready (map (fun x => Arrive (fst x) (snd x)) ms) (mkState c d s0)) as (s' & o & r & H1 & H2 & H3); auto.
      { intros y i e a Ha. cbn. destruct (HN y i e a Ha) as [[]|]; auto. }
      exists s', o. split; auto. assert (r = ms); [|now subst]. clear H1 H3. cbn [conn] in H2. clear HA HN.
      revert r H2. induction ms as [|[i e] l IHl]; intros r H2; cbn in H2; inversion H2; subst; auto.
      + f_equal. apply IHl; auto. intros i' e' Hi. apply (HM i' e'). now right.
      + exfalso. destruct (HM i e) as [[]|X]; [now left|auto].
    - destruct x as [i|a|i e].
      + destruct (IH (i :: c) d) as (s' & o & H1 & H2).
        * intros x Hx. apply HA. now right.
        * intros y j e a Ha. destruct (HN y j e a Ha) as [[X|X]|X]; auto. discriminate.
        * intros j e Hj. destruct (HM j e Hj) as [[X|X]|X]; auto; [injection X as ->; right; now left|right; now right].
        * cbn. rewrite H1. cbn. eauto.
      + destruct (IH c (a :: d)) as (s' & o & H1 & H2).
        * intros x Hx. apply HA. now right.
        * intros y j e b Hb. destruct (HN y j e b Hb) as [[X|X]|X]; auto; [injection X as ->; right; now left|right; now right].
        * intros j e Hj. destruct (HM j e Hj) as [[X|X]|X]; auto. discriminate.
        * cbn. rewrite H1. cbn. eauto.
      + exfalso. apply (HA (Arrive i e)) with i e; auto. now left. }
  apply G; auto; intros; left; eauto.
Qed.

(** A constructor that connects an input before it sets a member that add needs: a message that arrives in
    between makes it fail. *)
Theorem C85_connects_too_early (ctor1 ctor2 : list (act E)) (s0 : S) i a e :
  (forall x, In x ctor1 -> forall i e, x <> Arrive i e) -> ~ In (Set_ a) ctor1 -> In (Connect i) ctor1 -> In a (needs s0 i e) ->
  constructing (ctor1 ++ ctor2) (ctor1 ++ [Arrive i e]) /\ run (start s0) (ctor1 ++ [Arrive i e]) = Err missing.
Proof.
  intros HA HS HC HN. split.
  - exists ctor2. rewrite filter_app. cbn. rewrite app_nil_r. f_equal. clear HS HC HN. induction ctor1 as [|x l IH]; auto.
    cbn. destruct x as [j|b|j e']; [f_equal; apply IH; intros y Hy; apply HA; now right..|].
    exfalso. apply (HA (Arrive j e')) with j e'; auto. now left.
  - unfold start. assert (G : forall c d, ~ In a d -> (In (Connect i) ctor1 \/ In i c) ->
      run (mkState c d s0) (ctor1 ++ [Arrive i e]) = Err missing).
    { clear HC. induction ctor1 as [|x l IH]; intros c d Hd Hc.
      - cbn [app Ctor_Model.run step conn set inner]. destruct Hc as [[]|Hc]. apply mem_In in Hc. rewrite Hc.
        destruct (forallb (fun a => mem a d) (needs s0 i e)) eqn:F; auto. exfalso. rewrite forallb_forall in F.
        apply Hd, mem_In, F, HN.
      - assert (HA' : forall y, In y l -> forall i e, y <> Arrive i e) by (intros y Hy; apply HA; now right).
        assert (HS' : ~ In (Set_ a) l) by (intros X; apply HS; now right).
        destruct x as [j|b|j e'].
        + cbn. rewrite IH; auto. destruct Hc as [[X|X]|X]; auto; [injection X as ->; right; now left|right; now right].
        + cbn. rewrite IH; auto.
          * intros [->|X]; auto. apply HS. now left.
          * destruct Hc as [[X|X]|X]; auto. discriminate.
        + exfalso. apply (HA (Arrive j e')) with j e'; auto. now left. }
    apply G; auto.
Qed.
End Props.

(** ** Instances *)
Section Exact.
Context {E : Type} (stamp : E -> Z) (n q : nat).
Definition exact_add (s : Exact_Model.state E) (i : nat) (e : E) : res (Exact_Model.state E * list (Exact_Model.out E)) :=
  Ok (Exact_Model.add stamp n q s (i, e)).
(** exact_time.hpp:91: assert(parent_) *)
Definition needs_parent (s : Exact_Model.state E) (i : nat) (e : E) : list nat := [0].

(** TimeSynchronizer, and a Synchronizer connected after its construction *)
Theorem C85_time_synchronizer l :
  constructing (synchronizer_then_inputs n) l ->
  exists s' o r, Ctor_Model.run exact_add needs_parent AssertFailed (start Exact_Model.init) l = Ok (s', o) /\
    received [] l r /\ added (fun i s e => exact_add s i e) Exact_Model.init r (inner s') o.
Proof.
  intros H. apply (C85_inputs_last exact_add needs_parent AssertFailed [0] (seq 0 n)); auto.
  intros y i e. unfold exact_add. destruct (Exact_Model.add stamp n q y (i, e)) as [y' o]. eauto.
Qed.

(** Synchronizer<ExactTime> constructed with its filters: a message that arrives on an input already connected
    fails the assertion. *)
Theorem C85_synchronizer_refuted i (e : E) : i < n -> exists l, constructing (synchronizer_with_inputs n) l /\
  Ctor_Model.run exact_add needs_parent AssertFailed (start Exact_Model.init) l = Err AssertFailed.
Proof.
  intros Hi. exists (connect_inputs n ++ [Arrive i e]).
  apply (C85_connects_too_early exact_add needs_parent AssertFailed (connect_inputs n) [Set_ 0] Exact_Model.init i 0 e).
  - intros x Hx. apply in_map_iff in Hx as (j & <- & _). discriminate.
  - intros X. apply in_map_iff in X as (j & X & _). discriminate.
  - apply in_map, in_seq. lia.
  - now left.
Qed.
End Exact.

(** ApproximateTime does not check parent_ but uses it as soon as it outputs a set
    (approximate_time.hpp:389): two messages with the same stamp. *)
Definition approx_cfg : Approx_Model.cfg := Approx_Model.mkCfg 2 10 1000 (fun d => d) (fun _ => 0%Z).
Definition approx_add (s : Approx_Model.state Z) (i : nat) (e : Z) : res (Approx_Model.state Z * list (list Z)) :=
  Approx_Model.add (fun z => z) approx_cfg s (i, e).
Definition approx_needs (s : Approx_Model.state Z) (i : nat) (e : Z) : list nat :=
  match approx_add s i e with Ok (_, _ :: _) => [0] | _ => [] end.
Theorem C85_approximate_refuted : exists l, constructing (synchronizer_with_inputs 2) l /\
  Ctor_Model.run approx_add approx_needs UB (start (Approx_Model.init approx_cfg)) l = Err UB.
Proof.
  exists [Connect 0; Connect 1; Arrive 0 7%Z; Arrive 1 7%Z]. split; [exists [Set_ 0]; reflexivity|vm_compute; reflexivity].
Qed.

(** The Python Cache connects its input first: add then uses attributes that do not exist. *)
Section Python.
Context {M : Type}.
Definition pycache_add (s : Py_Model.pycache M) (i : nat) (e : M * Z) : res (Py_Model.pycache M * list M) :=
  let '(s', o, _) := Py_Model.pycache_add s (fst e) (Py_Model.Stamp (snd e)) 0 in Ok (s', o).
Theorem C85_python_cache_refuted (m : M) (t : Z) (k : Z) : exists l, constructing python_cache l /\
  Ctor_Model.run pycache_add (fun _ _ _ => [7; 6; 5]) Thrown (start (Py_Model.pycache_init k false)) l = Err Thrown.
Proof.
  exists ([Connect 0] ++ [Arrive 0 (m, t)]).
  apply (C85_connects_too_early pycache_add _ Thrown [Connect 0] [Set_ 5; Set_ 6; Set_ 7; Set_ 4] (Py_Model.pycache_init k false) 0 7 (m, t)).
  - intros x [<-|[]]. discriminate.
  - intros [X|[]]. discriminate.
  - now left.
  - now left.
Qed.
(** So do the Python synchronizers (lock, queue_size). *)
Theorem C85_python_synchronizer_refuted (n : nat) (add : Py_Model.pysync M -> nat -> M -> res (Py_Model.pysync M * list (list M))) i (m : M) (k : Z) :
  i < n -> exists l, constructing (python_time_synchronizer n) l /\
  Ctor_Model.run add (fun _ _ _ => [2; 1]) Thrown (start (Py_Model.pysync_init n k)) l = Err Thrown.
Proof.
  intros Hi. exists (connect_inputs n ++ [Arrive i m]).
  apply (C85_connects_too_early add _ Thrown (connect_inputs n) [Set_ 1; Set_ 2] (Py_Model.pysync_init n k) i 2 m).
  - intros x Hx. apply in_map_iff in Hx as (j & <- & _). discriminate.
  - intros X. apply in_map_iff in X as (j & X & _). discriminate.
  - apply in_map, in_seq. lia.
  - now left.
Qed.
End Python.

(** Not vacuous: a TimeSynchronizer with two inputs and messages arriving before, during and after its
    construction; the message on input 1 before it is connected is not received. *)
Example C85_example :
  constructing (synchronizer_then_inputs 2) [Arrive 1 3%Z; Set_ 0; Connect 0; Arrive 0 3%Z; Arrive 1 3%Z; Connect 1; Arrive 1 3%Z] /\
  exists s', Ctor_Model.run (exact_add (fun z => z) 2 5) needs_parent AssertFailed (start Exact_Model.init)
    [Arrive 1 3%Z; Set_ 0; Connect 0; Arrive 0 3%Z; Arrive 1 3%Z; Connect 1; Arrive 1 3%Z] = Ok (s', [Exact_Model.Signal [3%Z; 3%Z]]).
Proof. split; [exists []; reflexivity|]. eexists. vm_compute. reflexivity. Qed.

Print Assumptions C85_inputs_last.
Print Assumptions C85_constructed_first_partial.
Print Assumptions C85_connects_too_early.
Print Assumptions C85_time_synchronizer.
Print Assumptions C85_synchronizer_refuted.
Print Assumptions C85_approximate_refuted.
Print Assumptions C85_python_cache_refuted.
Print Assumptions C85_python_synchronizer_refuted.
