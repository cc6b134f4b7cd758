(** Model of the Python SimpleFilter, src/message_filters/__init__.py:44-63: registerCallback and
    signalMessage, on its own and from several threads.

    [C] are the callback functions, [A] the values passed to them.  Iterating over a dict whose size has
    changed since the iterator was created raises RuntimeError (CPython's dict iterators compare the
    sizes before every step, also before the last).  A callback may register further callbacks with the filter that
    calls it and may raise an exception. *)
From Coq Require Import List ZArith Bool.
From Verif Require Import Base Py_Model.
Import ListNotations.
Local Open Scope nat_scope.

Section PyFilter.
Context {C A : Type}.
(** what a callback called with the given values registers, and whether it raises an exception *)
Variable registers : C -> list A -> list (C * list A).
Variable raises : C -> list A -> bool.

(** __init__.py:46-47: self.callbacks *)
Definition filter_ : Type := list (Z * (C * list A)).

(** What can be observed: registerCallback returns connection [k]; a callback is called; an exception leaves
    signalMessage *)
Inductive event := Registered (c : C) (args : list A) (k : Z) | Called (c : C) (x : list A) | Raised.

(** __init__.py:49-59 (registerCallback) *)
Definition register (f : filter_) (c : C) (args : list A) : filter_ * list event :=
  let conn := Z.of_nat (length f) in (put conn (c, args) f, [Registered c args conn]).

(** the registrations made by a callback, one after the other *)
Fixpoint register_all (f : filter_) (l : list (C * list A)) : filter_ * list event :=
  match l with
  | [] => (f, [])
  | (c, a) :: r => let (f1, e1) := register f c a in let (f2, e2) := register_all f1 r in (f2, e1 ++ e2)
  end.

(** __init__.py:61-63 (signalMessage): the iterator at position [i], created when the dict had [n] items; [k] bounds
    the number of steps left *)
Fixpoint iterate (k i n : nat) (f : filter_) (msg : list A) : filter_ * list event :=
  if Nat.eqb (length f) n then
    match nth_error f i, k with
    | Some (_, (c, args)), S k' =>
        let x := msg ++ args in
        let (f1, e1) := register_all f (registers c x) in
        if raises c x then (f1, Called c x :: e1 ++ [Raised])
        else let (f2, e2) := iterate k' (S i) n f1 msg in (f2, Called c x :: e1 ++ e2)
    | _, _ => (f, [])
    end
  else (f, [Raised]).
(** __init__.py:61-63 *)
Definition signal (f : filter_) (msg : list A) : filter_ * list event := iterate (length f) 0 (length f) f msg.

(** What the user does with the filter *)
Inductive op := Register (c : C) (args : list A) | Signal (msg : list A).
(** one call *)
Definition apply (f : filter_) (o : op) : filter_ * list event :=
  match o with Register c a => register f c a | Signal m => signal f m end.
(** a sequence of calls; an exception does not stop the caller *)
Fixpoint run (f : filter_) (l : list op) : filter_ * list event :=
  match l with
  | [] => (f, [])
  | o :: r => let (f1, e1) := apply f o in let (f2, e2) := run f1 r in (f2, e1 ++ e2)
  end.

(** ** Several threads *)
(** Where a thread is: between two calls; in registerCallback after conn = len(...) (line 57); in signalMessage
    with the iterator at position [i], created when there were [n] items.  Simplification: the steps
    between which another thread can run are these; callbacks are called atomically and register nothing. *)
Inductive phase := Idle | Numbered (c : C) (args : list A) (conn : Z) | Iterating (msg : list A) (i n : nat).
(** the dict and the threads with the calls they still have to make *)
Record pstate := mkPstate { dict_ : filter_; threads : list (phase * list op) }.

(** thread [t] makes a step; the events carry the thread *)
Definition step (t : nat) (s : pstate) : pstate * list (nat * event) :=
  match nth_error (threads s) t with
  | None => (s, [])
  | Some (p, l) =>
      let goto f p' l' e := (mkPstate f (upd t (p', l') (threads s)), map (pair t) e) in
      match p with
      | Idle =>
          match l with
          | [] => (s, [])
          | Register c a :: l' => goto (dict_ s) (Numbered c a (Z.of_nat (length (dict_ s)))) l' []
          | Signal m :: l' => goto (dict_ s) (Iterating m 0 (length (dict_ s))) l' []
          end
      | Numbered c a conn => goto (put conn (c, a) (dict_ s)) Idle l [Registered c a conn]
      | Iterating m i n =>
          if Nat.eqb (length (dict_ s)) n then
            match nth_error (dict_ s) i with
            | Some (_, (c, args)) =>
                if raises c (m ++ args) then goto (dict_ s) Idle l [Called c (m ++ args); Raised]
                else goto (dict_ s) (Iterating m (S i) n) l [Called c (m ++ args)]
            | None => goto (dict_ s) Idle l []
            end
          else goto (dict_ s) Idle l [Raised]
      end
  end.
(** a schedule *)
Fixpoint exec (sched : list nat) (s : pstate) : pstate * list (nat * event) :=
  match sched with
  | [] => (s, [])
  | t :: r => let (s1, e1) := step t s in let (s2, e2) := exec r s1 in (s2, e1 ++ e2)
  end.
(** threads about to make the given calls *)
Definition start (f : filter_) (calls : list (list op)) : pstate := mkPstate f (map (pair Idle) calls).
End PyFilter.
Arguments event : clear implicits.
Arguments op : clear implicits.
Arguments filter_ : clear implicits.
Arguments phase : clear implicits.
Arguments pstate : clear implicits.
