(** Vocabulary for the arguments of a Python Subscriber. *)
From Coq Require Import List Arith Bool.
From Verif Require Import Base PySub_Model.
Import ListNotations.

Section Spec.
Context {V : Type}.
Variable extra : nat -> bool.

(** The arguments of create_subscription without the callback: message type, topic and QoS profile
    by position or by keyword, the others by keyword; nothing both ways (the same keyword twice is an error of syntax). *)
Definition order : list name := [MsgType; Topic; Qos].
Definition subscription_arguments (pos : list V) (kw : list (name * V)) : Prop :=
  length pos <= 3 /\
  (forall p v, In (p, v) kw -> ~ In p (firstn (length pos) order) /\
     (In p order \/ exists n, p = Extra n /\ extra n = true)) /\
  (forall p, p = MsgType \/ p = Topic -> In p (firstn (length pos) order) \/ In p (map fst kw)).
End Spec.
