(** Model of message_filters::TimeSequencer (include/message_filters/time_sequencer.hpp).
    Simplifications: the timer (time_sequencer.hpp:221-227) is replaced by explicit
    [Tick] operations occurring at arbitrary moments; the callbacks run after the queue
    lock is released (time_sequencer.hpp:212-218), here a tick is one step and its outputs are the messages
    handed to signalMessage in order (see Sched_Model for the interleavings). *)
From Coq Require Import List Arith ZArith Bool.
From Verif Require Import Base RclTime.
Import ListNotations.
Local Open Scope Z_scope.

Section Seq.
Context {E : Type} (stamp : E -> time).
Variable queue_size : nat.   (* time_sequencer.hpp:231; uint32 *)
Variable delay : Z.          (* time_sequencer.hpp:229; nanoseconds *)

(** time_sequencer.hpp:237-239: messages_ (std::multiset ordered by stamp, as the list
    of its elements in iteration order) and last_time_. *)
Record state := mkState { messages : list E; last_time : time }.
(** last_time_ is default constructed. *)
Definition init : state := mkState [] time_default.

(** time_sequencer.hpp:172-181 (MessageSort) *)
Definition sort_lt (a b : E) : res bool := time_lt (stamp a) (stamp b).

(** std::multiset::insert: behind the elements that are not greater (upper bound).
    The comparisons are made in list order; a tree makes fewer, so the model may throw
    where a particular tree would not, but only if clock sources are mixed. *)
Fixpoint ins (e : E) (l : list E) : res (list E) :=
  match l with
  | [] => Ok [e]
  | x :: t =>
      do b <- sort_lt e x;
      if b then Ok (e :: l) else do t' <- ins e t; Ok (x :: t')
  end.

(** std::multiset::erase(const key_type &): all elements equivalent to the key. *)
Fixpoint erase_key (k : E) (l : list E) : res (list E) :=
  match l with
  | [] => Ok []
  | x :: t =>
      do lt1 <- sort_lt x k;
      do lt2 <- sort_lt k x;
      do t' <- erase_key k t;
      Ok (if negb lt1 && negb lt2 then t' else x :: t')
  end.

(** time_sequencer.hpp:146-160 (add) *)
Definition add (s : state) (e : E) : res state :=
  do late <- time_lt (stamp e) (last_time s);
  if late then Ok s
  else
    do ms <- ins e (messages s);
    if negb (Nat.eqb queue_size 0) && Nat.ltb queue_size (length ms) then
      match ms with
      | [] => Err UB
      | k :: _ => do ms' <- erase_key k ms; Ok (mkState ms' (last_time s))
      end
    else Ok (mkState ms (last_time s)).

(** time_sequencer.hpp:190-219 (dispatch); [nows k] is the k-th reading of
    rclcpp::Clock().now(), which is taken once per loop iteration (202). *)
Fixpoint dispatch (nows : nat -> Z) (ms : list E) (last : time) : res (state * list E) :=
  match ms with
  | [] => Ok (mkState [] last, [])
  | e :: t =>
      do due <- time_le (time_add (stamp e) delay) (mkTime (nows 0%nat) SystemClock);
      if due then
        do '(s', outs) <- dispatch (fun k => nows (S k)) t (stamp e);
        Ok (s', e :: outs)
      else Ok (mkState ms last, [])
  end.

(** The calls: add, and dispatch by the timer with its readings of the clock *)
Inductive op := Add (e : E) | Tick (nows : nat -> Z).

(** One call: the new state and the messages signalled *)
Definition step (s : state) (o : op) : res (state * list E) :=
  match o with
  | Add e => do s' <- add s e; Ok (s', [])
  | Tick nows => dispatch nows (messages s) (last_time s)
  end.

(** A sequence of calls *)
Fixpoint run (s : state) (h : list op) : res (state * list E) :=
  match h with
  | [] => Ok (s, [])
  | o :: h' =>
      do '(s1, o1) <- step s o;
      do '(s2, o2) <- run s1 h';
      Ok (s2, o1 ++ o2)
  end.
End Seq.
Arguments state : clear implicits.
Arguments op : clear implicits.
