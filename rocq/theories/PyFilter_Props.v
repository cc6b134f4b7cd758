(** Property C86: the callbacks of a Python filter. *)
From Coq Require Import List ZArith Arith Lia Bool.
From Verif Require Import Base Py_Model PyFilter_Model PyFilter_Spec Sched_Proofs.
Import ListNotations.
Local Open Scope nat_scope.

Section Props.
Context {C A : Type} (registers : C -> list A -> list (C * list A)) (raises : C -> list A -> bool).
Notation filter_ := (filter_ C A).
Notation event := (event C A).
Notation op := (op C A).
Notation run := (run registers raises).
Notation signal := (signal registers raises).

(** the dict holds the registrations, numbered *)
Definition numbered (f : filter_) (l : list (C * list A)) : Prop :=
  f = combine (map Z.of_nat (seq 0 (length l))) l.

Lemma numbered_length f l : numbered f l -> length f = length l.
Proof. intros ->. rewrite combine_length, map_length, seq_length. lia. Qed.

Lemma put_new {M} k (m : M) q : (forall x, In x q -> fst x <> k) -> put k m q = q ++ [(k, m)].
Proof.
  induction q as [|[j x] q IH]; cbn; intros H; auto. destruct (Z.eqb_spec j k) as [->|N].
  - exfalso. apply (H (k, x)); auto.
  - f_equal. apply IH. intros y Hy. apply H. auto.
Qed.

Lemma combine_app {X Y} (a a' : list X) (b b' : list Y) : length a = length b -> combine (a ++ a') (b ++ b') = combine a b ++ combine a' b'.
Proof. revert b. induction a as [|x a IH]; destruct b; cbn; intros H; try discriminate; auto. f_equal. apply IH. lia. Qed.

Lemma register_numbered f l c a : numbered f l ->
  numbered (fst (register f c a)) (l ++ [(c, a)]) /\ snd (register f c a) = [Registered c a (Z.of_nat (length l))].
Proof.
  intros H. unfold register. cbn [fst snd]. pose proof (numbered_length _ _ H) as L. rewrite L. split; auto.
  unfold numbered in *. rewrite put_new.
  - rewrite app_length. cbn [length]. rewrite seq_app, map_app, combine_app, <- H; auto. now rewrite map_length, seq_length.
  - intros [k x] Hx. rewrite H in Hx. apply in_combine_l in Hx. apply in_map_iff in Hx as (j & <- & Hj). apply in_seq in Hj. cbn. lia.
Qed.

(** the connections are numbered from [n] on *)
Definition consecutive (n : nat) (tr : list event) : Prop :=
  connections tr = map Z.of_nat (seq n (length (registered tr))).

Lemma registered_app (a b : list event) : registered (a ++ b) = registered a ++ registered b.
Proof. apply flat_map_app. Qed.
Lemma connections_app (a b : list event) : connections (a ++ b) = connections a ++ connections b.
Proof. apply flat_map_app. Qed.
Lemma calls_app (a b : list event) : calls (a ++ b) = calls a ++ calls b.
Proof. apply flat_map_app. Qed.
Lemma consecutive_app n (a b : list event) : consecutive n a -> consecutive (n + length (registered a)) b -> consecutive n (a ++ b).
Proof. unfold consecutive. intros H1 H2. now rewrite connections_app, registered_app, app_length, seq_app, map_app, H1, H2. Qed.

Lemma register_all_numbered ls : forall f l, numbered f l ->
  numbered (fst (register_all f ls)) (l ++ ls) /\ registered (snd (register_all f ls)) = ls /\
  calls (snd (register_all f ls)) = [] /\ ~ In Raised (snd (register_all f ls)) /\ consecutive (length l) (snd (register_all f ls)).
Proof.
  induction ls as [|[c a] ls IH]; intros f l H.
  - cbn. rewrite app_nil_r. repeat split; auto.
  - cbn [register_all]. destruct (register_numbered f l c a H) as [H1 H2]. destruct (register f c a) as [f1 e1]. cbn [fst snd] in *.
    destruct (IH f1 _ H1) as (G1 & G2 & G3 & G4 & G5). destruct (register_all f1 ls) as [f2 e2]. cbn [fst snd] in *. subst e1.
    rewrite <- app_assoc in G1. cbn [app] in *. repeat split; auto.
    + change (registered (Registered c a (Z.of_nat (length l)) :: e2)) with ((c, a) :: registered e2). now rewrite G2.
    + intros [X|X]; [discriminate|auto].
    + change (Registered c a (Z.of_nat (length l)) :: e2) with ([Registered c a (Z.of_nat (length l))] ++ e2).
      apply consecutive_app; [reflexivity|]. cbn. now rewrite app_length in G5.
Qed.

Notation disturbs := (disturbs registers raises).

Lemma numbered_nth f l i : numbered f l -> nth_error f i = match nth_error l i with Some x => Some (Z.of_nat i, x) | None => None end.
Proof.
  intros ->. assert (G : forall s, nth_error (combine (map Z.of_nat (seq s (length l))) l) i =
    match nth_error l i with Some x => Some (Z.of_nat (s + i), x) | None => None end); [|apply G].
  revert i. induction l as [|x l IH]; intros [|i] s; cbn; auto; [now rewrite Nat.add_0_r|]. rewrite IH.
  destruct (nth_error l i); auto. do 2 f_equal. lia.
Qed.

Lemma iterate_spec msg : forall k i n f l, numbered f l -> n = length l -> k + i = n ->
  let r := iterate registers raises k i n f msg in
  numbered (fst r) (l ++ registered (snd r)) /\ consecutive (length l) (snd r) /\
  calls (snd r) = up_to disturbs (one_call_each msg (skipn i l)) /\
  (In Raised (snd r) <-> exists x, In x (one_call_each msg (skipn i l)) /\ disturbs x = true).
Proof.
  assert (FIN : forall f l, numbered f l -> numbered f (l ++ [])) by (intros; now rewrite app_nil_r).
  induction k as [|k IH]; intros i n f l H -> E r.
  - subst r. cbn [iterate]. rewrite (numbered_length _ _ H), Nat.eqb_refl.
    assert (S0 : skipn i l = []) by (apply skipn_all2; lia). rewrite S0.
    replace (match nth_error f i with Some (_, (c, args)) => (f, []) | None => (f, []) end) with (f, @nil event)
      by (destruct (nth_error f i) as [[? [? ?]]|]; auto).
    cbn [fst snd registered flat_map one_call_each map up_to]. split; [auto|]. split; [reflexivity|]. split; [reflexivity|]. split; [intros []|intros (x & [] & _)].
  - assert (LT : i < length l) by lia. destruct (nth_error l i) as [[c a]|] eqn:N; [|apply nth_error_None in N; lia].
    assert (SK : skipn i l = (c, a) :: skipn (S i) l).
    { clear - N. revert i N. induction l as [|x l IHl]; intros [|i] N; cbn in *; try discriminate; [now injection N as ->|]. rewrite IHl; auto. }
    rewrite SK. cbn [one_call_each map fst snd up_to].
    subst r. cbn [iterate]. rewrite (numbered_length _ _ H), Nat.eqb_refl, (numbered_nth _ _ _ H), N.
    destruct (register_all_numbered (registers c (msg ++ a)) f l H) as (G1 & G2 & G3 & G4 & G5).
    destruct (register_all f (registers c (msg ++ a))) as [f1 e1] eqn:RA. cbn [fst snd] in *.
    fold (one_call_each msg (skipn (S i) l)).
    destruct (raises c (msg ++ a)) eqn:R.
    + cbn [fst snd]. assert (D : disturbs (c, msg ++ a) = true) by (unfold PyFilter_Spec.disturbs; cbn; now rewrite R). rewrite D.
      change (Called c (msg ++ a) :: e1 ++ [Raised]) with ([Called c (msg ++ a)] ++ e1 ++ [Raised]).
      rewrite !registered_app, !calls_app, G2, G3. cbn [registered calls flat_map app]. rewrite app_nil_r. repeat split; auto.
      * apply (consecutive_app _ [Called c (msg ++ a)]); [reflexivity|]. cbn. rewrite Nat.add_0_r. apply consecutive_app; auto. reflexivity.
      * intros _. exists (c, msg ++ a). split; auto. now left.
      * intros _. right. apply in_or_app. right. now left.
    + destruct (registers c (msg ++ a)) as [|z zs] eqn:RG.
      * cbn in RA. injection RA as <- <-. cbn [app].
        assert (D : disturbs (c, msg ++ a) = false) by (unfold PyFilter_Spec.disturbs; cbn; now rewrite R, RG). rewrite D.
        specialize (IH (S i) (length l) f l H eq_refl ltac:(lia)). cbv zeta in IH.
        destruct (iterate registers raises k (S i) (length l) f msg) as [f2 e2]. cbn [fst snd] in *.
        destruct IH as (I1 & I2 & I3 & I4).
        change (Called c (msg ++ a) :: e2) with ([Called c (msg ++ a)] ++ e2).
        rewrite registered_app, calls_app, I3. cbn [registered calls flat_map app]. repeat split; auto.
        -- intros [X|X]; [discriminate|]. apply I4 in X as (x & X1 & X2). exists x. split; auto. now right.
        -- intros (x & [<-|X1] & X2); [congruence|]. right. apply I4. eauto.
      * assert (D : disturbs (c, msg ++ a) = true) by (unfold PyFilter_Spec.disturbs; cbn; rewrite RG; apply orb_true_r). rewrite D.
        assert (NE : Nat.eqb (length f1) (length l) = false).
        { apply Nat.eqb_neq. rewrite (numbered_length _ _ G1), app_length. cbn. lia. }
        assert (IT : iterate registers raises k (S i) (length l) f1 msg = (f1, [Raised])) by (destruct k; cbn [iterate]; now rewrite NE).
        rewrite IT. cbn [fst snd].
        change (Called c (msg ++ a) :: e1 ++ [Raised]) with ([Called c (msg ++ a)] ++ e1 ++ [Raised]).
        rewrite !registered_app, !calls_app, G2, G3. cbn [registered calls flat_map app]. rewrite app_nil_r. repeat split; auto.
        -- apply (consecutive_app _ [Called c (msg ++ a)]); [reflexivity|]. cbn. rewrite Nat.add_0_r. apply consecutive_app; auto. reflexivity.
        -- intros _. exists (c, msg ++ a). split; auto. now left.
        -- intros _. right. apply in_or_app. right. now left.
Qed.

Lemma signal_spec f l msg : numbered f l -> let r := signal f msg in
  numbered (fst r) (l ++ registered (snd r)) /\ consecutive (length l) (snd r) /\
  calls (snd r) = up_to disturbs (one_call_each msg l) /\
  (In Raised (snd r) <-> exists x, In x (one_call_each msg l) /\ disturbs x = true).
Proof. intros H. apply (iterate_spec msg (length f) 0 (length f) f l); auto. now apply numbered_length. Qed.

Lemma run_spec ops : forall f l, numbered f l ->
  numbered (fst (run f ops)) (l ++ registered (snd (run f ops))) /\ consecutive (length l) (snd (run f ops)).
Proof.
  induction ops as [|o ops IH]; intros f l H; cbn [PyFilter_Model.run].
  - cbn. rewrite app_nil_r. split; auto. reflexivity.
  - assert (G : numbered (fst (apply registers raises f o)) (l ++ registered (snd (apply registers raises f o))) /\ consecutive (length l) (snd (apply registers raises f o))).
    { destruct o as [c a|m]; cbn [apply].
      - destruct (register_numbered f l c a H) as [G1 G2]. rewrite G2. split; [exact G1|reflexivity].
      - destruct (signal_spec f l m H) as (G1 & G2 & _). auto. }
    destruct (apply registers raises f o) as [f1 e1]. cbn [fst snd] in *. destruct G as [G1 G2].
    specialize (IH f1 _ G1). destruct (run f1 ops) as [f2 e2]. cbn [fst snd] in *. destruct IH as [I1 I2].
    rewrite registered_app, app_assoc. split; auto. apply consecutive_app; auto. now rewrite app_length in I2.
Qed.

(** C86: the connections a filter returns are the numbers 0, 1, 2, ...: no two callbacks share one. *)
Theorem C86_connections_distinct ops :
  let tr := snd (run [] ops) in connections tr = map Z.of_nat (seq 0 (length (registered tr))).
Proof. apply (run_spec ops [] []). reflexivity. Qed.

(** A message signalled after any history is given, followed by their own arguments, to the callbacks
    registered so far, to each once and in the order of registration, as long as none of them raises
    an exception or registers a callback. *)
Theorem C86_every_callback_once ops msg :
  let '(f, tr) := run [] ops in
  (forall c a, In (c, a) (registered tr) -> registers c (msg ++ a) = [] /\ raises c (msg ++ a) = false) ->
  calls (snd (signal f msg)) = one_call_each msg (registered tr) /\ ~ In Raised (snd (signal f msg)).
Proof.
  pose proof (run_spec ops [] [] eq_refl) as [H _]. destruct (run [] ops) as [f tr]. cbn [fst snd app] in H. intros HQ.
  destruct (signal_spec f _ msg H) as (_ & _ & H3 & H4). rewrite H3.
  assert (Q : forall x, In x (one_call_each msg (registered tr)) -> disturbs x = false).
  { intros x Hx. apply in_map_iff in Hx as ([c a] & <- & Hx). unfold PyFilter_Spec.disturbs. cbn [fst snd]. destruct (HQ c a Hx) as [-> ->]. reflexivity. }
  split.
  - clear - Q. induction (one_call_each msg (registered tr)) as [|x l IH]; auto. cbn. rewrite Q by now left. f_equal. apply IH. intros; apply Q; now right.
  - intros X. apply H4 in X as (x & X1 & X2). rewrite Q in X2; auto. discriminate.
Qed.

(** In general the callbacks are called up to the first that raises or registers a callback; then, and only
    then, signalMessage raises. *)
Theorem C86_up_to_the_first_disturbance ops msg :
  let '(f, tr) := run [] ops in
  calls (snd (signal f msg)) = up_to disturbs (one_call_each msg (registered tr)) /\
  (In Raised (snd (signal f msg)) <-> exists c a, In (c, a) (registered tr) /\ (raises c (msg ++ a) = true \/ registers c (msg ++ a) <> [])).
Proof.
  pose proof (run_spec ops [] [] eq_refl) as [H _]. destruct (run [] ops) as [f tr]. cbn [fst snd app] in H.
  destruct (signal_spec f _ msg H) as (_ & _ & H3 & H4). split; auto. rewrite H4. split.
  - intros (x & X1 & X2). apply in_map_iff in X1 as ([c a] & <- & X1). exists c, a. split; auto. unfold PyFilter_Spec.disturbs in X2. cbn [fst snd] in X2.
    apply orb_true_iff in X2 as [X2|X2]; auto. right. intros X. rewrite X in X2. discriminate.
  - intros (c & a & X1 & X2). exists (c, msg ++ a). split; [now apply (in_map (fun ca => (fst ca, msg ++ snd ca)) _ (c, a))|].
    unfold PyFilter_Spec.disturbs. cbn [fst snd]. destruct X2 as [->|X2]; auto. destruct (registers c (msg ++ a)); [congruence|]. apply orb_true_r.
Qed.
End Props.

(** A callback that registers another one: refuted that the callbacks behind it get the message. *)
Theorem C86_registering_callback_refuted :
  exists (registers : nat -> list nat -> list (nat * list nat)) ops msg c a,
  let '(f, tr) := run registers (fun _ _ => false) [] ops in
  In (c, a) (registered tr) /\ ~ In (c, msg ++ a) (calls (snd (signal registers (fun _ _ => false) f msg))) /\
  In Raised (snd (signal registers (fun _ _ => false) f msg)).
Proof.
  exists (fun c _ => if Nat.eqb c 0 then [(7, [])] else []), [Register 0 []; Register 1 []], [5], 1, [].
  vm_compute. split; [auto|]. split; [|auto]. intros [X|[]]. discriminate.
Qed.

Section Threads.
Context {C A : Type} (raises : C -> list A -> bool).
Notation filter_ := (filter_ C A).
Notation event := (event C A).
Notation exec := (PyFilter_Model.exec raises).

Lemma of_thread_app t (a b : list (nat * event)) : of_thread t (a ++ b) = of_thread t a ++ of_thread t b.
Proof. unfold of_thread. now rewrite filter_app, map_app. Qed.
Lemma of_thread_self t (e : list event) : of_thread t (map (pair t) e) = e.
Proof. unfold of_thread. induction e as [|x e IH]; auto. cbn. rewrite Nat.eqb_refl. cbn. now f_equal. Qed.
Lemma of_thread_other t t' (e : list event) : t <> t' -> of_thread t (map (pair t') e) = [].
Proof. intros N. unfold of_thread. induction e as [|x e IH]; auto. cbn. destruct (Nat.eqb_spec t' t); [congruence|auto]. Qed.

(** what a thread with signals still to make will do *)
Fixpoint sig (l : list (C * list A)) : list event :=
  match l with [] => [] | cx :: r => Called (fst cx) (snd cx) :: if raises (fst cx) (snd cx) then [Raised] else sig r end.
Lemma sig_signalled l m : sig (one_call_each m l) = signalled raises l m.
Proof.
  unfold signalled. generalize (one_call_each m l). clear. induction l as [|[c x] l IH]; auto. cbn.
  destruct (raises c x); cbn; [reflexivity|]. now rewrite IH.
Qed.
Definition rest (f : filter_) (p : phase C A * list (op C A)) : list event :=
  (match fst p with Iterating m i n => sig (skipn i (one_call_each m (map snd f))) | _ => [] end) ++
  flat_map (fun o => match o with Signal m => sig (one_call_each m (map snd f)) | _ => [] end) (snd p).
Definition only_signals (f : filter_) (p : phase C A * list (op C A)) : Prop :=
  match fst p with Idle => True | Iterating m i n => n = length f | _ => False end /\
  forall o, In o (snd p) -> exists m, o = Signal m.

Lemma skipn_map_nth {X Y} (g : X -> Y) (l : list X) i x : nth_error l i = Some x -> skipn i (map g l) = g x :: skipn (S i) (map g l).
Proof. revert i. induction l as [|y l IH]; intros [|i] H; cbn in *; try discriminate; [now injection H as ->|]. rewrite (IH i); auto. Qed.

Lemma step_signals t (s : pstate C A) : (forall t' p, nth_error (threads s) t' = Some p -> only_signals (dict_ s) p) ->
  let '(s1, e) := PyFilter_Model.step raises t s in
  dict_ s1 = dict_ s /\ (forall t' p, nth_error (threads s1) t' = Some p -> only_signals (dict_ s) p) /\
  (forall t', match nth_error (threads s) t', nth_error (threads s1) t' with
              | Some p, Some p1 => rest (dict_ s) p = of_thread t' e ++ rest (dict_ s) p1
              | None, None => of_thread t' e = [] | _, _ => False end).
Proof.
  intros HS.
  assert (STAY : dict_ s = dict_ s /\ (forall t' p, nth_error (threads s) t' = Some p -> only_signals (dict_ s) p) /\
    (forall t', match nth_error (threads s) t', nth_error (threads s) t' with
              | Some p, Some p1 => rest (dict_ s) p = of_thread t' ([] : list (nat * event)) ++ rest (dict_ s) p1
              | None, None => of_thread t' ([] : list (nat * event)) = [] | _, _ => False end)).
  { repeat split; auto; [apply HS in H; apply H|apply HS in H; apply H|]. intros t'. destruct (nth_error (threads s) t'); auto. }
  unfold step. destruct (nth_error (threads s) t) as [[p l]|] eqn:N; [|exact STAY].
  assert (GO : forall p' l' e, only_signals (dict_ s) (p', l') -> rest (dict_ s) (p, l) = e ++ rest (dict_ s) (p', l') ->
    dict_ s = dict_ s /\ (forall t' q, nth_error (upd t (p', l') (threads s)) t' = Some q -> only_signals (dict_ s) q) /\
    (forall t', match nth_error (threads s) t', nth_error (upd t (p', l') (threads s)) t' with
              | Some q, Some q1 => rest (dict_ s) q = of_thread t' (map (pair t) e) ++ rest (dict_ s) q1
              | None, None => of_thread t' (map (pair t) e) = [] | _, _ => False end)).
  { intros p' l' e HO HE. split; auto. split.
    - intros t' q. rewrite nth_error_upd. destruct (Nat.eqb_spec t t') as [<-|NE]; [|apply HS]. rewrite N. now intros [= <-].
    - intros t'. rewrite nth_error_upd. destruct (Nat.eqb_spec t t') as [<-|NE].
      + rewrite N. now rewrite of_thread_self.
      + rewrite of_thread_other by auto. destruct (nth_error (threads s) t'); auto. }
  destruct (HS _ _ N) as [P1 P2]. cbn [fst snd] in P1, P2. destruct p as [|c a k|m i n]; [|destruct P1|].
  - destruct l as [|[c a|m] l]; [exact STAY| |].
    + exfalso. destruct (P2 (Register c a) (or_introl eq_refl)) as [? X]. discriminate X.
    + apply GO; [|reflexivity]. split; [reflexivity|cbn; intros o Ho; apply P2; now right].
  - subst n. rewrite Nat.eqb_refl. destruct (nth_error (dict_ s) i) as [[k [c a]]|] eqn:NI.
    + assert (SK : skipn i (one_call_each m (map snd (dict_ s))) = (c, m ++ a) :: skipn (S i) (one_call_each m (map snd (dict_ s)))).
      { unfold one_call_each. rewrite map_map. rewrite (skipn_map_nth _ _ _ _ NI). reflexivity. }
      destruct (raises c (m ++ a)) eqn:RA; apply GO; try (split; [exact I || reflexivity|exact P2]); unfold rest; cbn [fst snd]; rewrite SK; cbn [sig fst snd]; rewrite RA; reflexivity.
    + apply GO; [split; [exact I|exact P2]|]. unfold rest. cbn [fst snd]. rewrite skipn_all2; auto. unfold one_call_each. rewrite !map_length. now apply nth_error_None.
Qed.

(** Threads that only signal do not disturb each other: each of their messages is given to every callback
    once and in order, up to the first that raises an exception, which leaves the call of this thread and
    of no other (a thread that has not finished has done a prefix of this). *)
Theorem C86_concurrent_signals (f : filter_) (msgs : list (list (list A))) sched t ms :
  nth_error msgs t = Some ms ->
  exists more, of_thread t (snd (exec sched (start f (map (map Signal) msgs)))) ++ more = flat_map (signalled raises (map snd f)) ms.
Proof.
  intros HT.
  assert (G : forall sched s, (forall t' p, nth_error (threads s) t' = Some p -> only_signals (dict_ s) p) ->
    forall p, nth_error (threads s) t = Some p -> exists p1, rest (dict_ s) p = of_thread t (snd (exec sched s)) ++ rest (dict_ s) p1).
  { clear. induction sched as [|t' r IH]; intros s HS p HP; cbn [PyFilter_Model.exec]; [exists p; reflexivity|].
    pose proof (step_signals t' s HS) as ST. destruct (PyFilter_Model.step raises t' s) as [s1 e1]. destruct ST as (D & S1 & S2).
    specialize (IH s1). rewrite D in IH. specialize (IH S1). specialize (S2 t). rewrite HP in S2.
    destruct (nth_error (threads s1) t) as [p1|] eqn:P1; [|destruct S2]. destruct (IH p1 eq_refl) as (p2 & E).
    destruct (exec r s1) as [s2 e2]. cbn [snd] in *. exists p2. rewrite of_thread_app, <- app_assoc, <- E. exact S2. }
  destruct (G sched (start f (map (map Signal) msgs))) with (p := (@Idle C A, map (@Signal C A) ms)) as (p1 & E).
  - intros t' p H. cbn [threads start] in H. apply nth_error_In, in_map_iff in H as (l & <- & H). apply in_map_iff in H as (x & <- & _).
    split; [exact I|]. cbn. intros o Ho. apply in_map_iff in Ho as (m & <- & _). eauto.
  - cbn [threads start]. rewrite map_map. now apply map_nth_error with (f := fun x => (Idle, map Signal x)).
  - exists (rest f p1). cbn [dict_ start] in E. rewrite <- E. unfold rest. cbn [fst snd app]. clear.
    induction ms as [|m ms IH]; auto. cbn. rewrite IH, sig_signalled. reflexivity.
Qed.
End Threads.

(** Registering from two threads is not safe: both get connection 0, and one of the callbacks is never
    called. *)
Theorem C86_concurrent_registration_refuted : exists sched tr s,
  exec (fun (_ : nat) (_ : list nat) => false) sched (start [] [[Register 1 []]; [Register 2 []]]) = (s, tr) /\
  In (0, Registered 1 [] 0%Z) tr /\ In (1, Registered 2 [] 0%Z) tr /\
  forall msg, calls (snd (signal (fun _ _ => []) (fun _ _ => false) (dict_ s) msg)) = [(2, msg)].
Proof.
  exists [0; 1; 0; 1]. do 2 eexists. split; [vm_compute; reflexivity|]. split; [now left|]. split; [right; now left|].
  intros msg. cbn. now rewrite app_nil_r.
Qed.

(** Registering while another thread signals makes that thread raise. *)
Theorem C86_register_while_signalling_refuted : exists sched tr s,
  exec (fun (_ : nat) (_ : list nat) => false) sched (start [(0%Z, (1, [])); (1%Z, (2, []))] [[Signal [5]]; [Register 3 []]]) = (s, tr) /\
  calls (of_thread 0 tr) = [(1, [5])] /\ In Raised (of_thread 0 tr).
Proof. exists [0; 0; 1; 1; 0]. do 2 eexists. split; [vm_compute; reflexivity|]. split; [reflexivity|]. right. now left. Qed.

(** Not vacuous: two callbacks with arguments, two messages. *)
Example C86_example :
  calls (snd (run (fun _ _ => []) (fun _ _ => false) [] [Register 1 [7]; Signal [4]; Register 2 []; Register 1 []; Signal [5; 6]])) =
  [(1, [4; 7]); (1, [5; 6; 7]); (2, [5; 6]); (1, [5; 6])].
Proof. reflexivity. Qed.
Example C86_example_threads :
  snd (exec (fun (_ : nat) (_ : list nat) => false) [0; 1; 1; 0; 0; 1; 1] (start [(0%Z, (1, [])); (1%Z, (2, [9]))] (map (map Signal) [[[5]]; [[6]]]))) =
  [(1, Called 1 [6]); (0, Called 1 [5]); (0, Called 2 [5; 9]); (1, Called 2 [6; 9])].
Proof. reflexivity. Qed.
Example C86_example_threads_raising :
  snd (exec (fun (c : nat) (x : list nat) => Nat.eqb c 2 && Nat.eqb (nth 0 x 0) 5) [0; 1; 1; 0; 0; 1; 1; 0; 0]
    (start [(0%Z, (1, [])); (1%Z, (2, [9])); (2%Z, (3, []))] (map (map Signal) [[[5]; [4]]; [[6]]]))) =
  [(1, Called 1 [6]); (0, Called 1 [5]); (0, Called 2 [5; 9]); (0, Raised); (1, Called 2 [6; 9]); (1, Called 3 [6]); (0, Called 1 [4])].
Proof. reflexivity. Qed.

Print Assumptions C86_connections_distinct.
Print Assumptions C86_every_callback_once.
Print Assumptions C86_up_to_the_first_disturbance.
Print Assumptions C86_registering_callback_refuted.
Print Assumptions C86_concurrent_signals.
Print Assumptions C86_concurrent_registration_refuted.
Print Assumptions C86_register_while_signalling_refuted.
