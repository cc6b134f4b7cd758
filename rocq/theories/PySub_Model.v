(** The Python Subscriber, src/message_filters/__init__.py:66-90.

    [V] are Python values.  What is assumed of rclpy: Node.create_subscription has the parameters
    msg_type, topic, callback and qos_profile, in this order and without defaults, and further
    ones that can only be given by keyword and have defaults ([extra] says which); it calls the
    callback with every message received.  Simplifications: create_subscription itself does not
    fail; __getattr__ (88-90) is left out. *)
From Coq Require Import List ZArith Arith Bool.
From Verif Require Import Base Py_Model PyFilter_Model.
Import ListNotations.
Local Open Scope nat_scope.

(** Names of parameters *)
Inductive name := MsgType | Topic | Callback | Qos | Extra (n : nat).
(** No counterpart in the code: comparison of names *)
Definition name_eqb (a b : name) : bool :=
  match a, b with
  | MsgType, MsgType | Topic, Topic | Callback, Callback | Qos, Qos => true
  | Extra m, Extra n => Nat.eqb m n
  | _, _ => false
  end.

Section PySub.
Context {V : Type}.
Variable extra : nat -> bool.
(** self.callback and the number 10 as values *)
Variables (cb ten : V).

Definition has (p : name) (l : list (name * V)) : bool := existsb (fun x => name_eqb (fst x) p) l.

(** A call with the positional arguments [pos] and the keyword arguments [kw]: the values of the
    parameters, or TypeError *)
Definition call (pos : list V) (kw : list (name * V)) : res (list (name * V)) :=
  let params := [MsgType; Topic; Callback; Qos] in
  let given := combine params pos in
  if length params <? length pos then Err Thrown
  else if existsb (fun x => has (fst x) given || match fst x with Extra n => negb (extra n) | _ => false end) kw then Err Thrown
  else if forallb (fun p => has p (given ++ kw)) params then Ok (given ++ kw)
  else Err Thrown.

(** The Subscriber: its node, its topic, the values create_subscription was called with, and its
    callbacks (47) *)
Record sub := mkSub { node : V; topic : V; values : list (name * V); callbacks : filter_ V V }.

(** 75-80 (__init__); args[0] and args[2] raise IndexError if there are too few arguments;
    setdefault (79) *)
Definition construct (args : list V) (kw : list (name * V)) : res sub :=
  match nth_error args 0, nth_error args 2 with
  | Some n, Some t =>
      let kw' := if has Qos kw then kw else kw ++ [(Qos, ten)] in
      do b <- call (skipn 1 args ++ [cb]) kw';
      Ok (mkSub n t b [])
  | _, _ => Err Thrown
  end.

(** 85-86 (getTopic) *)
Definition getTopic (s : sub) : V := topic s.

(** 82-83 (callback), called by rclpy *)
Definition receive (registers : V -> list V -> list (V * list V)) (raises : V -> list V -> bool) (s : sub) (m : V)
    : sub * list (event V V) :=
  let (f, e) := signal registers raises (callbacks s) [m] in (mkSub (node s) (topic s) (values s) f, e).
(** 49-59, inherited *)
Definition registerCallback (s : sub) (c : V) (args : list V) : sub * list (event V V) :=
  let (f, e) := register (callbacks s) c args in (mkSub (node s) (topic s) (values s) f, e).

(** What happens after the construction *)
Inductive happening := Received (m : V) | Registers (c : V) (args : list V).
Fixpoint go (registers : V -> list V -> list (V * list V)) (raises : V -> list V -> bool) (s : sub) (l : list happening)
    : sub * list (event V V) :=
  match l with
  | [] => (s, [])
  | x :: r =>
      let (s1, e1) := match x with Received m => receive registers raises s m | Registers c a => registerCallback s c a end in
      let (s2, e2) := go registers raises s1 r in (s2, e1 ++ e2)
  end.
End PySub.
Arguments sub : clear implicits.
Arguments happening : clear implicits.
