(** Model of include/message_filters/cache.hpp (class Cache), function by function.

    Simplifications: messages are non-null; [E] stands for EventType
    (MessageEvent<M const>) and [stamp] for mt::TimeStamp<M>::value of its
    message; the connection to the input filter is modelled in Net_Model.v and
    the locking in Sched_Model.v; sizes are [nat] (unsigned int / int in C++, see
    CacheInt_Model.v). *)
From Coq Require Import List Arith ZArith Bool.
From Verif Require Import Base RclTime.
Import ListNotations.

Section Cache.
Context {E : Type} (stamp : E -> time).

(** cache.hpp:340-342.  [cap] is [cache_size_]; it has no default member
    initialiser, [None] stands for an indeterminate value. *)
Record state := mkState { cap : option nat; contents : list E }.

(** cache.hpp:102-110 (setCacheSize): 0 is rejected. *)
Definition setCacheSize (n : nat) (s : state) : state :=
  match n with
  | O => s
  | S _ => mkState (Some n) (contents s)
  end.

(** cache.hpp:80-83 (constructor). *)
Definition ctor (n : nat) : state := setCacheSize n (mkState None []).

(** cache.hpp:135-137: while (cache_.size() >= cache_size_) cache_.pop_front();
    popping an empty deque is undefined behaviour. *)
Fixpoint pop_while (c : nat) (l : list E) : res (list E) :=
  if c <=? length l then
    match l with
    | [] => Err UB
    | _ :: t => pop_while c t
    end
  else Ok l.

(** cache.hpp:143-155: walk backwards from rbegin() while the element's stamp is
    greater than the new one's, insert at base().  [rl] is the deque read
    backwards; the result is again backwards. *)
Fixpoint insert_back (e : E) (rl : list E) : res (list E) :=
  match rl with
  | [] => Ok [e]
  | x :: t =>
      do g <- time_gt (stamp x) (stamp e);
      if g then (do r <- insert_back e t; Ok (x :: r))
      else Ok (e :: x :: t)
  end.

(** The result of a call, and what add passes on *)
Inductive out : Type :=
| Forwarded (e : E)           (** signalMessage(e) *)
| Elems (l : list E)
| Elem (o : option E)
| TimeOut (t : time)
| Done
| Failed (e : err).

(** cache.hpp:125-159 (add).  The pops are done before the comparisons, so they
    persist when a comparison throws; nothing is forwarded in that case. *)
Definition add (e : E) (s : state) : state * out :=
  match cap s with
  | None => (s, Failed UB)  (* reads an indeterminate value *)
  | Some c =>
      match pop_while c (contents s) with
      | Err x => (s, Failed x)
      | Ok l =>
          match insert_back e (rev l) with
          | Err x => (mkState (cap s) l, Failed x)
          | Ok rl => (mkState (cap s) (rev rl), Forwarded e)
          end
      end
  end.

(** The index loops of the queries: at most [k] steps upwards from [i] while [p]
    holds of element [i]. *)
Fixpoint scan_up (p : E -> res bool) (l : list E) (k i : nat) : res nat :=
  match k with
  | O => Ok i
  | S k' =>
      match nth_error l i with
      | None => Err UB
      | Some e => do b <- p e; if b then scan_up p l k' (S i) else Ok i
      end
  end.

(** elements with index in [i, j) *)
Definition slice (i j : nat) (l : list E) : list E := firstn (j - i) (skipn i l).

(** cache.hpp:169-197 (getInterval). *)
Definition getInterval (start stop : time) (l : list E) : res (list E) :=
  do i <- scan_up (fun e => time_lt (stamp e) start) l (length l) 0;
  do j <- scan_up (fun e => time_le (stamp e) stop) l (length l - i) i;
  Ok (slice i j l).

(** cache.hpp:219-224: start_index counts down from size-1 while it is > 0 and
    the element is after start. *)
Fixpoint surround_start (start : time) (l : list E) (i : nat) : res nat :=
  match i with
  | O => Ok 0
  | S i' =>
      match nth_error l i with
      | None => Err UB
      | Some e => do g <- time_gt (stamp e) start;
                  if g then surround_start start l i' else Ok i
      end
  end.

(** cache.hpp:206-240 (getSurroundingInterval). *)
Definition getSurroundingInterval (start stop : time) (l : list E) : res (list E) :=
  match l with
  | [] => Ok []
  | _ =>
      do i <- surround_start start l (length l - 1);
      do j <- scan_up (fun e => time_lt (stamp e) stop) l (length l - 1 - i) i;
      Ok (slice i (j + 1) l)
  end.

(** cache.hpp:247-267 (getElemBeforeTime): elem_index is the last index passed by
    the loop, -1 if none. *)
Definition getElemBeforeTime (t : time) (l : list E) : res (option E) :=
  do i <- scan_up (fun e => time_lt (stamp e) t) l (length l) 0;
  Ok (match i with O => None | S j => nth_error l j end).

(** cache.hpp:282-287: [n] is i+1, counting down from size; the result is the
    last index passed by the loop. *)
Fixpoint after_index (t : time) (l : list E) (n : nat) (elem_index : option nat) : res (option nat) :=
  match n with
  | O => Ok elem_index
  | S i =>
      match nth_error l i with
      | None => Err UB
      | Some e => do g <- time_gt (stamp e) t;
                  if g then after_index t l i (Some i) else Ok elem_index
      end
  end.

(** cache.hpp:274-296 (getElemAfterTime). *)
Definition getElemAfterTime (t : time) (l : list E) : res (option E) :=
  do oi <- after_index t l (length l) None;
  Ok (match oi with None => None | Some i => nth_error l i end).

(** cache.hpp:301-314 (getLatestTime). *)
Definition getLatestTime (l : list E) : time :=
  match rev l with [] => time_default | e :: _ => stamp e end.

(** cache.hpp:319-332 (getOldestTime). *)
Definition getOldestTime (l : list E) : time :=
  match l with [] => time_default | e :: _ => stamp e end.

(** The API calls on a cache. *)
Inductive op : Type :=
| SetSize (n : nat)
| Add (e : E)
| GetInterval (a b : time)
| GetSurrounding (a b : time)
| GetBefore (t : time)
| GetAfter (t : time)
| GetLatest
| GetOldest.

(** No counterpart in the code: the result of a query as an [out] *)
Definition query {A} (f : A -> out) (r : res A) : out :=
  match r with Ok a => f a | Err e => Failed e end.

(** One call *)
Definition step (s : state) (o : op) : state * out :=
  match o with
  | SetSize n => (setCacheSize n s, Done)
  | Add e => add e s
  | GetInterval a b => (s, query Elems (getInterval a b (contents s)))
  | GetSurrounding a b => (s, query Elems (getSurroundingInterval a b (contents s)))
  | GetBefore t => (s, query Elem (getElemBeforeTime t (contents s)))
  | GetAfter t => (s, query Elem (getElemAfterTime t (contents s)))
  | GetLatest => (s, TimeOut (getLatestTime (contents s)))
  | GetOldest => (s, TimeOut (getOldestTime (contents s)))
  end.

(** A whole life of a cache: the final state and the result of every call. *)
Fixpoint run (s : state) (h : list op) : state * list out :=
  match h with
  | [] => (s, [])
  | o :: h' => let (s1, x) := step s o in
               let (s2, xs) := run s1 h' in (s2, x :: xs)
  end.

(** The state after a history of a cache constructed with size [n] *)
Definition final (n : nat) (h : list op) : state := fst (run (ctor n) h).
(** The results of a history of a cache constructed with size [n] *)
Definition outputs (n : nat) (h : list op) : list out := snd (run (ctor n) h).

End Cache.

Arguments op : clear implicits.
Arguments out : clear implicits.
Arguments state : clear implicits.
