(** C124: the Python Subscriber. *)
From Coq Require Import List ZArith Arith Lia Bool.
From Verif Require Import Base Py_Model PyFilter_Model PyFilter_Spec PyFilter_Props PySub_Model PySub_Spec PySub_Proofs.
Import ListNotations.
Local Open Scope nat_scope.

Section Props.
Context {V : Type} (extra : nat -> bool) (cb ten : V).
Notation construct := (construct extra cb ten).

(** A Subscriber is constructed exactly if node, message type and topic are given by position, and
    everything else by keyword; otherwise the constructor raises an exception. *)
Theorem C124_constructed_iff args kw :
  ((exists s, construct args kw = Ok s) <->
   length args = 3 /\ forall p v, In (p, v) kw -> p = Qos \/ exists n, p = Extra n /\ extra n = true) /\
  (forall x, construct args kw = Err x -> x = Thrown).
Proof. split; [apply construct_ok_iff|apply construct_err]. Qed.

(** It then subscribes with exactly these arguments, its own callback and the QoS profile given,
    10 if none is; getTopic returns the topic. *)
Theorem C124_subscribes_as_told args kw s :
  construct args kw = Ok s -> exists n ty t, args = [n; ty; t] /\ node s = n /\ getTopic s = t /\
  forall p v, In (p, v) (values s) <->
    (p = MsgType /\ v = ty) \/ (p = Topic /\ v = t) \/ (p = Callback /\ v = cb) \/ In (p, v) kw \/
    (p = Qos /\ v = ten /\ forall w, ~ In (Qos, w) kw).
Proof.
  intros Hs. destruct (proj1 (construct_ok_iff extra cb ten args kw)) as [HL _]; [eauto|].
  destruct args as [|n [|ty [|t [|]]]]; try discriminate. exists n, ty, t. split; auto.
  destruct (construct_values extra cb ten n ty t kw s Hs) as (H1 & H2 & _ & H3). auto.
Qed.

(** Arguments of this form are arguments of a subscription in the sense of the documentation. *)
Theorem C124_accepted_arguments_partial args kw s :
  construct args kw = Ok s -> subscription_arguments extra (tl args) kw.
Proof.
  intros Hs. destruct (proj1 (construct_ok_iff extra cb ten args kw)) as [HL HK]; [eauto|].
  destruct args as [|n [|ty [|t [|]]]]; try discriminate. cbn [tl]. split; [cbn; lia|]. split.
  - intros p v Hin. cbn. destruct (HK p v Hin) as [->|(m & -> & Hm)]; (split; [intros [H|[H|[]]]; discriminate|]); eauto.
  - intros p [-> | ->]; cbn; auto.
Qed.

(** The documentation promises all of them: false for a QoS profile given by position, a topic or a
    message type given by keyword. *)
Theorem C124_same_arguments_refuted (n ty t q : V) :
  (subscription_arguments extra [ty; t; q] [] /\ construct [n; ty; t; q] [] = Err Thrown) /\
  (subscription_arguments extra [ty] [(Topic, t)] /\ construct [n; ty] [(Topic, t)] = Err Thrown) /\
  (subscription_arguments extra [] [(Topic, t); (MsgType, ty)] /\ construct [n] [(Topic, t); (MsgType, ty)] = Err Thrown).
Proof.
  split; [|split]; (split; [|reflexivity]); (split; [cbn; lia|]); split; cbn.
  - intros p v [].
  - intros p [-> | ->]; auto.
  - intros p v [[= <- <-]|[]]. split; [intros [X|[]]; discriminate|auto].
  - intros p [-> | ->]; auto.
  - intros p v [[= <- <-]|[[= <- <-]|[]]]; auto.
  - intros p [-> | ->]; auto.
Qed.

(** Every message received is given to the callbacks registered so far, to each once and in order,
    up to the first that raises an exception or registers a callback. *)
Theorem C124_messages_reach_callbacks registers raises args kw s l m :
  construct args kw = Ok s ->
  let '(s', tr) := go registers raises s l in
  calls (snd (receive registers raises s' m)) = up_to (disturbs registers raises) (one_call_each [m] (registered tr)) /\
  node s' = node s /\ getTopic s' = getTopic s.
Proof.
  intros Hs. destruct (proj1 (construct_ok_iff extra cb ten args kw)) as [HL _]; [eauto|].
  destruct args as [|n [|ty [|t [|]]]]; try discriminate.
  destruct (construct_values extra cb ten n ty t kw s Hs) as (_ & _ & Hc & _).
  rewrite go_run, Hc. pose proof (C86_up_to_the_first_disturbance registers raises (map as_op l) [m]) as H.
  destruct (run registers raises [] (map as_op l)) as [f tr]. cbn [fst snd]. destruct H as [H _].
  split; [|auto]. unfold receive. cbn [callbacks]. destruct (signal registers raises f [m]) as [f' e]. exact H.
Qed.
End Props.

(** A subscriber with a QoS profile and another keyword, two callbacks, messages before, between and after. *)
Example C124_example :
  exists s, construct (fun n => n =? 0) 99 10 [1; 2; 3] [(Extra 0, 7); (Qos, 5)] = Ok s /\
    values s = [(MsgType, 2); (Topic, 3); (Callback, 99); (Extra 0, 7); (Qos, 5)] /\
    calls (snd (go (fun _ _ => []) (fun _ _ => false) s [Received 40; Registers 20 [8]; Received 41; Registers 21 []; Received 42])) =
      [(20, [41; 8]); (20, [42; 8]); (21, [42])].
Proof. eexists. split; [vm_compute; reflexivity|]. split; vm_compute; reflexivity. Qed.
Example C124_example_default :
  exists s, construct (fun _ => false) 99 10 [1; 2; 3] [] = Ok s /\ values s = [(MsgType, 2); (Topic, 3); (Callback, 99); (Qos, 10)].
Proof. eexists. split; vm_compute; reflexivity. Qed.
Example C124_example_unknown_keyword : construct (fun _ => false) 99 10 [1; 2; 3] [(Extra 4, 6)] = Err Thrown.
Proof. vm_compute. reflexivity. Qed.

Print Assumptions C124_constructed_iff.
Print Assumptions C124_subscribes_as_told.
Print Assumptions C124_accepted_arguments_partial.
Print Assumptions C124_same_arguments_refuted.
Print Assumptions C124_messages_reach_callbacks.
