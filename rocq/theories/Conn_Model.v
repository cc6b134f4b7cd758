(** Threads that emit messages on, register callbacks with and disconnect callbacks from one signal
    (Signal1 of a filter, Signal9 of a synchronizer), step by step.

    Calling a callback takes two steps, its beginning and its end: between them any other thread may
    run.  Callbacks end, do not throw and do not use this signal (see Signal_Model.v for those that
    do).  A helper is identified by a number, as in Signal_Model.v. *)
From Coq Require Import List Arith Bool.
From Verif Require Import Base.
Import ListNotations.

Section Conn.
Context {C M : Type}.        (* callback functions, messages *)

(** The calls: SimpleFilter::signalMessage or Synchronizer::signal, registerCallback,
    Connection::disconnect of the connection of helper [k] *)
Inductive op := Emit (m : M) | Register (c : C) | Disconnect (k : nat).

(** Where a thread is: between two calls; in a call, not holding the mutex yet; in
    Signal1::call (signal1.hpp:104-114) holding the mutex with iterator position [i] and possibly inside
    the callback at that position; in addCallback (84-92) or removeCallback (94-102) holding the mutex; at
    the end of a call, still holding the mutex, with the helper registered. *)
Inductive phase :=
| Idle
| Waiting (o : op)
| Emitting (m : M) (i : nat) (inside : bool)
| Registering (c : C)
| Disconnecting (k : nat)
| Leaving (o : op) (registered : option nat).

(** signal1.hpp:117-118: mutex_ (its owner) and callbacks_; [next] numbers the helpers; the threads with the
    calls they still have to make *)
Record state := mkState {
  owner : option nat; callbacks : list (nat * C); next : nat; threads : list (phase * list op) }.

(** What can be observed: thread [t] enters a call, a callback begins, a callback ends, thread
    [t] returns from a call (registerCallback: with the connection of helper [k]) *)
Inductive event :=
| Invoked (t : nat) (o : op) | Began (t k : nat) (m : M) | Ended (t k : nat) (m : M)
| Returned (t : nat) (o : op) (registered : option nat).

(** signal1.hpp:97-101: std::find and erase *)
Fixpoint erase (k : nat) (l : list (nat * C)) : list (nat * C) :=
  match l with
  | [] => []
  | x :: t => if Nat.eqb (fst x) k then t else x :: erase k t
  end.

(** No counterpart in the code: thread [t] goes on to phase [p] with calls [l] to make *)
Definition goto (s : state) (t : nat) (p : phase) (l : list op) : list (phase * list op) := upd t (p, l) (threads s).

(** A thread can only disconnect a connection that exists *)
Definition exists_yet (s : state) (o : op) : bool :=
  match o with Disconnect k => k <? next s | _ => true end.

(** signal1.hpp:89, 96, 106: what follows std::lock_guard *)
Definition enter (o : op) : phase :=
  match o with Emit m => Emitting m 0 false | Register c => Registering c | Disconnect k => Disconnecting k end.

(** Thread [t] is scheduled.  signal1.hpp:84-114; the same code is in signal9.hpp:91-99, 129-149. *)
Definition step (t : nat) (s : state) : state * list event :=
  match nth_error (threads s) t with
  | None => (s, [])
  | Some (Idle, []) => (s, [])
  | Some (Idle, o :: l) =>
      if exists_yet s o then (mkState (owner s) (callbacks s) (next s) (goto s t (Waiting o) l), [Invoked t o])
      else (s, [])
  | Some (Waiting o, l) =>
      match owner s with
      | None => (mkState (Some t) (callbacks s) (next s) (goto s t (enter o) l), [])
      | Some _ => (s, [])
      end
  | Some (Emitting m i inside, l) =>
      match nth_error (callbacks s) i with
      | Some (k, _) =>
          if inside then (mkState (owner s) (callbacks s) (next s) (goto s t (Emitting m (S i) false) l), [Ended t k m])
          else (mkState (owner s) (callbacks s) (next s) (goto s t (Emitting m i true) l), [Began t k m])
      | None => (mkState (owner s) (callbacks s) (next s) (goto s t (Leaving (Emit m) None) l), [])
      end
  | Some (Registering c, l) =>
      (mkState (owner s) (callbacks s ++ [(next s, c)]) (S (next s)) (goto s t (Leaving (Register c) (Some (next s))) l), [])
  | Some (Disconnecting k, l) =>
      (mkState (owner s) (erase k (callbacks s)) (next s) (goto s t (Leaving (Disconnect k) None) l), [])
  | Some (Leaving o r, l) => (mkState None (callbacks s) (next s) (goto s t Idle l), [Returned t o r])
  end.

(** A schedule: the threads in the order in which they make a step *)
Fixpoint exec (sched : list nat) (s : state) : state * list event :=
  match sched with
  | [] => (s, [])
  | t :: r => let (s1, e1) := step t s in let (s2, e2) := exec r s1 in (s2, e1 ++ e2)
  end.

(** A signal without callbacks and threads with calls to make *)
Definition start (calls : list (list op)) : state := mkState None [] 0 (map (pair Idle) calls).
End Conn.
Arguments op : clear implicits.
Arguments phase : clear implicits.
Arguments state : clear implicits.
Arguments event : clear implicits.
