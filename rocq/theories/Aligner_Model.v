(** Model of message_filters::InputAligner (include/message_filters/input_aligner.hpp).
    The variadic inputs are a list of queues.  Simplifications: stamps, periods and the
    timeout are nanosecond counts of one clock (TimeStamp<M>::value of messages with and
    without header is always a ROS-clock time, message_traits.hpp:85-102, like
    last_in_ts_ and last_out_ts_, so no comparison throws); stamp + period does not
    overflow int64 (see Time64_Model.v); the dispatch timer is an explicit
    operation; the callbacks, which run under the lock, are the outputs. *)
From Coq Require Import List Arith ZArith Bool.
From Verif Require Import Base RclTime.
Import ListNotations.
Local Open Scope Z_scope.

Section Aligner.
Context {E : Type} (stamp : E -> Z).
Variable n : nat.            (* N_INPUTS, input_aligner.hpp:79 *)
Variable timeout : Z.        (* timeout_, input_aligner.hpp:422 *)

(** input_aligner.hpp:254-311 (EventQueue: a std::multiset plus bookkeeping) *)
Record queue := mkQueue {
  evs : list E; next_ts : Z; period : Z; active : bool; processed : nat; dropped : nat }.
(** input_aligner.hpp:260-262: next_ts_ = Time::max, period 0, inactive *)
Definition queue_init : queue := mkQueue [] int64_max 0 false 0 0.

(** input_aligner.hpp:422-426; last_in_ts_ and last_out_ts_ start at 0 (98-99, 106-107) *)
Record state := mkState { queues : list queue; last_in : Z; last_out : Z }.
(** input_aligner.hpp:96-110 (constructors): all queues empty, both times 0 *)
Definition init : state := mkState (repeat queue_init n) 0 0.

(** std::multiset::insert with EventSort (input_aligner.hpp:243-252): behind the not greater ones *)
Fixpoint ins (e : E) (l : list E) : list E :=
  match l with
  | [] => [e]
  | x :: t => if stamp e <? stamp x then e :: l else x :: ins e t
  end.

(** input_aligner.hpp:264-277 (firstTimeStamp), with its side effects *)
Definition first_time_stamp (q : queue) : queue * Z :=
  match evs q with
  | e :: _ => (mkQueue (evs q) (stamp e + period q) (period q) true (processed q) (dropped q), stamp e)
  | [] => if active q then (q, next_ts q) else (q, int64_max)
  end.

(** input_aligner.hpp:279-283 (popFirst) *)
Definition pop_first (q : queue) : queue :=
  mkQueue (tl (evs q)) (next_ts q) (period q) (active q) (S (processed q)) (dropped q).
(** input_aligner.hpp:285-288 (msgDropped) *)
Definition msg_dropped (q : queue) : queue :=
  mkQueue (evs q) (next_ts q) (period q) (active q) (processed q) (S (dropped q)).
(** input_aligner.hpp:290-293 (setPeriod) *)
Definition set_period_q (p : Z) (q : queue) : queue :=
  mkQueue (evs q) (next_ts q) p (active q) (processed q) (dropped q).
(** input_aligner.hpp:295-298 (setActive) *)
Definition set_active (b : bool) (q : queue) : queue :=
  mkQueue (evs q) (next_ts q) (period q) b (processed q) (dropped q).
(** No counterpart in the code: replacing EventQueue::events_ *)
Definition set_evs (l : list E) (q : queue) : queue :=
  mkQueue l (next_ts q) (period q) (active q) (processed q) (dropped q).

(** input_aligner.hpp:87-93, 300-303 (QueueStatus, getStatus) *)
Record status := mkStatus { st_active : bool; st_size : nat; st_processed : nat; st_dropped : nat }.
(** input_aligner.hpp:300-303 (getStatus) *)
Definition get_status (q : queue) : status :=
  mkStatus (active q) (length (evs q)) (processed q) (dropped q).
(** input_aligner.hpp:202-206 (getQueueStatus<I>) *)
Definition get_queue_status (s : state) (i : nat) : option status :=
  match nth_error (queues s) i with Some q => Some (get_status q) | None => None end.

(** input_aligner.hpp:339-364 (addEvent<I>) *)
Definition add (s : state) (i : nat) (e : E) : res state :=
  match nth_error (queues s) i with
  | None => Err UB
  | Some q =>
      if stamp e <? last_out s then
        Ok (mkState (upd i (msg_dropped q) (queues s)) (last_in s) (last_out s))
      else
        Ok (mkState (upd i (set_evs (ins e (evs q)) q) (queues s))
                    (if last_in s <? stamp e then stamp e else last_in s) (last_out s))
  end.

(** input_aligner.hpp:196-200 (setInputPeriod<I>) *)
Definition set_period (s : state) (i : nat) (p : Z) : res state :=
  match nth_error (queues s) i with
  | None => Err UB
  | Some q => Ok (mkState (upd i (set_period_q p q) (queues s)) (last_in s) (last_out s))
  end.

(** input_aligner.hpp:366-373 (inputsAvailable) *)
Definition inputs_available (s : state) : bool :=
  existsb (fun q => match evs q with [] => false | _ => true end) (queues s).

(** input_aligner.hpp:416-420 (getFirstSampleIdx): std::min_element, the first minimum *)
Fixpoint min_element (ts : list Z) (idx : nat) (best : nat) (best_ts : Z) : nat :=
  match ts with
  | [] => best
  | t :: ts' => if t <? best_ts then min_element ts' (S idx) idx t else min_element ts' (S idx) best best_ts
  end.
(** input_aligner.hpp:416-420 (getFirstSampleIdx) *)
Definition first_sample_idx (ts : list Z) : nat :=
  match ts with [] => 0%nat | t :: ts' => min_element ts' 1 0 t end.

(** input_aligner.hpp:375-414 (dispatchFirstMessage, both overloads): the new state,
    what was forwarded on which output, and the returned bool. *)
Definition dispatch_first (s : state) : res (state * list (nat * E) * bool) :=
  let qts := map first_time_stamp (queues s) in
  let qs := map fst qts in
  let idx := first_sample_idx (map snd qts) in
  match nth_error qs idx with
  | None => Err UB
  | Some q =>
      match evs q with
      | e :: _ => Ok (mkState (upd idx (pop_first q) qs) (last_in s) (stamp e), [(idx, e)], true)
      | [] =>
          if timeout <=? last_in s - snd (first_time_stamp q) then
            Ok (mkState (upd idx (set_active false q) qs) (last_in s) (last_out s), [], true)
          else Ok (mkState qs (last_in s) (last_out s), [], false)
      end
  end.

(** input_aligner.hpp:236-238, the while loop *)
Fixpoint dispatch_loop (fuel : nat) (s : state) : res (state * list (nat * E)) :=
  match fuel with
  | O => Err OutOfFuel
  | S fuel' =>
      do '(s1, o1, again) <- dispatch_first s;
      if (again : bool) then
        do '(s2, o2) <- dispatch_loop fuel' s1;
        Ok (s2, o1 ++ o2)
      else Ok (s1, o1)
  end.

(** enough fuel: two iterations per queued message and one per input *)
Definition fuel_for (s : state) : nat :=
  S (2 * list_sum (map (fun q => length (evs q)) (queues s)) + length (queues s)).

(** input_aligner.hpp:226-240 (dispatchMessages) *)
Definition dispatch (s : state) : res (state * list (nat * E)) :=
  if inputs_available s then dispatch_loop (fuel_for s) s else Ok (s, []).

(** The calls on an aligner: addEvent<i> (339-364), setInputPeriod<i> (196-200) and dispatchMessages
    (226-240), called by the user or the timer *)
Inductive op := Add (i : nat) (e : E) | SetPeriod (i : nat) (p : Z) | Dispatch.

(** One call: the new state and what is forwarded on which output *)
Definition step (s : state) (o : op) : res (state * list (nat * E)) :=
  match o with
  | Add i e => do s' <- add s i e; Ok (s', [])
  | SetPeriod i p => do s' <- set_period s i p; Ok (s', [])
  | Dispatch => dispatch s
  end.

(** A sequence of calls *)
Fixpoint run (s : state) (h : list op) : res (state * list (nat * E)) :=
  match h with
  | [] => Ok (s, [])
  | o :: h' =>
      do '(s1, o1) <- step s o;
      do '(s2, o2) <- run s1 h';
      Ok (s2, o1 ++ o2)
  end.
End Aligner.
Arguments queue : clear implicits.
Arguments state : clear implicits.
Arguments op : clear implicits.
