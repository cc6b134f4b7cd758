(** Lemmas for C124. *)
From Coq Require Import List ZArith Arith Lia Bool.
From Verif Require Import Base Py_Model PyFilter_Model PyFilter_Spec PyFilter_Props PySub_Model PySub_Spec.
Import ListNotations.
Local Open Scope nat_scope.

Lemma name_eqb_spec a b : reflect (a = b) (name_eqb a b).
Proof.
  destruct a, b; cbn; try (constructor; congruence). destruct (Nat.eqb_spec n n0); constructor; congruence.
Qed.

Section Proofs.
Context {V : Type} (extra : nat -> bool) (cb ten : V).
Notation construct := (construct extra cb ten).
Notation call := (call (V := V) extra).

Lemma has_spec p (l : list (name * V)) : has p l = true <-> exists v, In (p, v) l.
Proof.
  unfold has. rewrite existsb_exists. split.
  - intros ([q v] & Hin & H). cbn in H. destruct (name_eqb_spec q p) as [->|]; [eauto|discriminate].
  - intros (v & Hin). exists (p, v). split; auto. cbn. now destruct (name_eqb_spec p p).
Qed.

Definition with_qos (kw : list (name * V)) : list (name * V) := if has Qos kw then kw else kw ++ [(Qos, ten)].

Lemma with_qos_has kw : has Qos (with_qos kw) = true.
Proof.
  unfold with_qos. destruct (has Qos kw) eqn:H; auto. apply has_spec. exists ten. apply in_or_app. right. now left.
Qed.

Lemma with_qos_in kw p v : In (p, v) (with_qos kw) <-> In (p, v) kw \/ (p = Qos /\ v = ten /\ forall w, ~ In (Qos, w) kw).
Proof.
  unfold with_qos. destruct (has Qos kw) eqn:H.
  - split; auto. intros [X|(_ & _ & X)]; auto. apply has_spec in H as (w & Hw). destruct (X w Hw).
  - assert (HN : forall w, ~ In (Qos, w) kw) by (intros w Hw; assert (has Qos kw = true) by (apply has_spec; eauto); congruence).
    rewrite in_app_iff. cbn. split.
    + intros [X|[[= <- <-]|[]]]; auto.
    + intros [X|(-> & -> & _)]; auto.
Qed.

Lemma construct_ok_iff args kw :
  (exists s, construct args kw = Ok s) <->
  length args = 3 /\ forall p v, In (p, v) kw -> p = Qos \/ exists n, p = Extra n /\ extra n = true.
Proof.
  unfold PySub_Model.construct. fold (with_qos kw).
  destruct args as [|n [|ty [|t rest]]]; cbn [nth_error].
  1-3: (split; [intros (s & H); discriminate|intros [H _]; discriminate]).
  cbn [skipn app]. destruct rest as [|a rest].
  - cbn [app]. unfold PySub_Model.call. cbn [length Nat.ltb Nat.leb combine].
    set (bad := existsb _ (with_qos kw)). destruct bad eqn:Hb.
    + split; [intros (s & H); discriminate|]. intros [_ HK]. exfalso. unfold bad in Hb. apply existsb_exists in Hb as ([p v] & Hin & Hp).
      cbn [fst] in Hp. apply with_qos_in in Hin as [Hin|(-> & _)]; [|discriminate].
      destruct (HK p v Hin) as [->|(m & -> & Hm)]; cbn in Hp; [discriminate|]. rewrite Hm in Hp. discriminate.
    + assert (HF : forallb (fun p => has p ([(MsgType, ty); (Topic, t); (Callback, cb)] ++ with_qos kw)) [MsgType; Topic; Callback; Qos] = true).
      { cbn [forallb]. rewrite !andb_true_iff. repeat split; auto. apply has_spec. pose proof (with_qos_has kw) as H. apply has_spec in H as (v & Hv).
        exists v. apply in_or_app. now right. }
      rewrite HF. cbn [bind]. split; [|eauto]. intros _. split; auto. intros p v Hin.
      assert (HB : (has p [(MsgType, ty); (Topic, t); (Callback, cb)] || match p with Extra n => negb (extra n) | _ => false end) = false).
      { destruct (has p [(MsgType, ty); (Topic, t); (Callback, cb)] || match p with Extra n => negb (extra n) | _ => false end) eqn:Hx; auto.
        exfalso. assert (bad = true); [|congruence]. unfold bad. apply existsb_exists. exists (p, v). split; auto. apply with_qos_in. auto. }
      destruct p as [| | | |m]; cbn in HB; try discriminate; auto. right. exists m. split; auto. now destruct (extra m).
  - assert (HE : call (ty :: t :: (a :: rest) ++ [cb]) (with_qos kw) = Err Thrown).
    { unfold PySub_Model.call. cbn [length app]. rewrite app_length. cbn [length].
      destruct (4 <? S (S (S (length rest + 1)))) eqn:HL; auto.
      apply Nat.ltb_ge in HL. assert (length rest = 0) by lia. destruct rest; [|discriminate]. cbn [app combine].
      match goal with |- (if ?x then _ else _) = _ => assert (HX : x = true); [|now rewrite HX] end.
      pose proof (with_qos_has kw) as H'. apply has_spec in H' as (v & Hv). apply existsb_exists. exists (Qos, v). split; auto. }
    rewrite HE. cbn. split; [intros (s & H); discriminate|intros [H _]; discriminate].
Qed.

Lemma construct_err args kw x : construct args kw = Err x -> x = Thrown.
Proof.
  unfold PySub_Model.construct, PySub_Model.call. destruct (nth_error args 0), (nth_error args 2); try congruence.
  destruct (_ <? _); [cbn; congruence|]. destruct (existsb _ _); [cbn; congruence|]. destruct (forallb _ _); cbn; congruence.
Qed.

Lemma construct_values n ty t kw s : construct [n; ty; t] kw = Ok s ->
  node s = n /\ topic s = t /\ callbacks s = [] /\
  forall p v, In (p, v) (values s) <->
    (p = MsgType /\ v = ty) \/ (p = Topic /\ v = t) \/ (p = Callback /\ v = cb) \/ In (p, v) kw \/
    (p = Qos /\ v = ten /\ forall w, ~ In (Qos, w) kw).
Proof.
  unfold PySub_Model.construct. fold (with_qos kw). cbn [nth_error skipn app]. unfold PySub_Model.call. cbn [length Nat.ltb Nat.leb combine].
  destruct (existsb _ (with_qos kw)); [discriminate|]. destruct (forallb _ _); [|discriminate]. cbn [bind]. intros [= <-]. cbn.
  do 3 (split; auto). intros p v. rewrite with_qos_in. split.
  - intros [[= <- <-]|[[= <- <-]|[[= <- <-]|[H|H]]]]; auto 8.
  - intros [(-> & ->)|[(-> & ->)|[(-> & ->)|[H|H]]]]; auto 8.
Qed.

(** ** delivery *)
Variables (registers : V -> list V -> list (V * list V)) (raises : V -> list V -> bool).
Definition as_op (x : happening V) : PyFilter_Model.op V V :=
  match x with Received m => Signal [m] | Registers c a => Register c a end.
Lemma go_run l : forall s, go registers raises s l =
  (mkSub (node s) (topic s) (values s) (fst (run registers raises (callbacks s) (map as_op l))), snd (run registers raises (callbacks s) (map as_op l))).
Proof.
  induction l as [|x l IH]; intros s; cbn [go map PyFilter_Model.run]; [now destruct s|].
  assert (HX : match x with Received m => receive registers raises s m | Registers c a => registerCallback s c a end =
    (mkSub (node s) (topic s) (values s) (fst (apply registers raises (callbacks s) (as_op x))), snd (apply registers raises (callbacks s) (as_op x)))).
  { destruct x; unfold receive, registerCallback; cbn [as_op apply].
    - now destruct (signal registers raises (callbacks s) [m]).
    - now destruct (register (callbacks s) c args). }
  rewrite HX. destruct (apply registers raises (callbacks s) (as_op x)) as [f1 e1]. cbn [fst snd]. rewrite IH. cbn [node topic values callbacks].
  destruct (run registers raises f1 (map as_op l)) as [f2 e2]. reflexivity.
Qed.
End Proofs.
