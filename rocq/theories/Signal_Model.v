(** Model of include/message_filters/signal1.hpp (class Signal1), signal9.hpp (class
    Signal9, same structure), connection.hpp and src/connection.cpp (class Connection) and
    the callback registration of simple_filter.hpp.

    A callback helper is a heap object; std::find in removeCallback compares shared_ptrs,
    i.e. identities.  Identities are never reused while a Connection refers to them (the
    Connection owns the helper), so they are numbered consecutively.  User callbacks are
    programs [acts c m]: what callback [c] does when called with [m] that concerns this
    signal - operations on it, or throwing.  The mutex is a std::mutex: locking it again
    in the same thread never returns ([Err Deadlock]). *)
From Coq Require Import List Arith Bool.
From Verif Require Import Base.
Import ListNotations.

Section Signal.
Context {C M : Type}.

(** API calls: registerCallback; Connection::disconnect ([None]: default-constructed
    Connection, [Some k]: a connection returned by the [k]-th registerCallback, or a copy
    of it); signalMessage *)
Inductive op := Register (c : C) | Disconnect (k : option nat) | Emit (m : M).
(** what a callback can do that matters here *)
Inductive act := Use (o : op) | Throws.
(** What the callback does when given a message *)
Variable acts : C -> M -> list act.

(** signal1.hpp:117-118, signal9.hpp:152-153: mutex_ is modelled by atomicity, see
    [run_acts]; callbacks_ *)
Record state := mkState { callbacks : list (nat * C); next : nat }.
(** A new signal *)
Definition init : state := mkState [] 0.

(** signal1.hpp:84-92 (addCallback), simple_filter.hpp:63-102 (registerCallback): the
    helper created; the Connection returned refers to it *)
Definition add_callback (s : state) (c : C) : state * nat :=
  (mkState (callbacks s ++ [(next s, c)]) (S (next s)), next s).

(** signal1.hpp:94-102 (removeCallback): std::find and erase *)
Fixpoint erase (k : nat) (l : list (nat * C)) : list (nat * C) :=
  match l with
  | [] => []
  | x :: t => if Nat.eqb (fst x) k then t else x :: erase k t
  end.
(** signal1.hpp:94-102, signal9.hpp:129-137 (removeCallback) *)
Definition remove_callback (s : state) (k : nat) : state := mkState (erase k (callbacks s)) (next s).

(** src/connection.cpp:39-46 (disconnect): void_disconnect_ if set; nothing is cleared *)
Definition disconnect (s : state) (conn : option nat) : state :=
  match conn with Some k => remove_callback s k | None => s end.

(** The body of a callback, run while call() holds the mutex: any operation on the same
    signal locks it again. *)
Fixpoint run_acts (l : list act) : res bool :=          (* true: threw *)
  match l with
  | [] => Ok false
  | Throws :: _ => Ok true
  | Use (Disconnect None) :: t => run_acts t             (* nothing to call *)
  | Use _ :: _ => Err Deadlock
  end.

(** signal1.hpp:104-114 (call): every helper in order; an exception leaves the loop (the
    lock_guard releases the mutex).  Returns the helpers called and whether one threw. *)
Fixpoint call (l : list (nat * C)) (m : M) : res (list (nat * C) * bool) :=
  match l with
  | [] => Ok ([], false)
  | (k, c) :: t =>
      do threw <- run_acts (acts c m);
      if (threw : bool) then Ok ([(k, c)], true)
      else do '(called, b) <- call t m; Ok ((k, c) :: called, b)
  end.

(** What a call returns, and for [Emit] the callbacks called and whether the last one threw *)
Inductive result := Connected (k : nat) | Done | Delivered (called : list (nat * C)) (threw : bool).

(** One call *)
Definition step (s : state) (o : op) : res (state * result) :=
  match o with
  | Register c => let '(s', k) := add_callback s c in Ok (s', Connected k)
  | Disconnect conn => Ok (disconnect s conn, Done)
  | Emit m => do '(called, b) <- call (callbacks s) m; Ok (s, Delivered called b)
  end.

(** A sequence of calls *)
Fixpoint run (s : state) (h : list op) : res (state * list result) :=
  match h with
  | [] => Ok (s, [])
  | o :: h' =>
      do '(s1, r) <- step s o;
      do '(s2, rs) <- run s1 h';
      Ok (s2, r :: rs)
  end.
End Signal.
Arguments state : clear implicits.
Arguments op : clear implicits.
Arguments act : clear implicits.
Arguments result : clear implicits.
