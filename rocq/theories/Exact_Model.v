(** Model of include/message_filters/sync_policies/exact_time.hpp (class ExactTime).

    Simplifications: the number of inputs [n] is a parameter (C++: the number of
    template arguments Ms...); stamps are nanoseconds in [Z] (all header stamps
    have the ROS clock source, RclTime.header_time_range); messages are non-null;
    std::map<rclcpp::Time, Tuple> is a list of (key, tuple) sorted by key; the
    mutex is treated in Sched_Model.v; [parent_] is set (assert(parent_) holds
    because Synchronizer::init calls initParent, synchronizer.hpp). *)
From Coq Require Import List Arith ZArith Bool.
From Verif Require Import Base.
Import ListNotations.
Local Open Scope Z_scope.

Section Exact.
Context {E : Type} (stamp : E -> Z).
Variable n : nat.            (* number of inputs, std::tuple_size_v<Tuple> *)
Variable queue_size : nat.   (* exact_time.hpp:188 queue_size_; 0 = unbounded *)

(** exact_time.hpp:60: Tuple = Events; a default-constructed event has no message. *)
Local Notation tuple := (list (option E)).
(** exact_time.hpp:60: a default-constructed Tuple *)
Definition empty_tuple : tuple := repeat None n.

(** exact_time.hpp:186-190 *)
Record state := mkState { tuples : list (Z * tuple); last_signal_time : Z }.
(** exact_time.hpp:62-66 (constructor) *)
Definition init : state := mkState [] 0.

(** What an addition gives to the signal and to the drop signal *)
Inductive out : Type :=
| Signal (s : list E)      (** parent_->signal(...) *)
| Drop (t : tuple).        (** drop_signal_.call(...), absent messages are null *)

(** exact_time.hpp:98-99: t = tuples_[stamp] (creating an empty tuple if the key is
    absent); get<i>(t) = evt.  Returns the map and the tuple referred to. *)
Fixpoint put (k : Z) (i : nat) (e : E) (m : list (Z * tuple)) : list (Z * tuple) * tuple :=
  match m with
  | [] => let t := upd i (Some e) empty_tuple in ([(k, t)], t)
  | (k', t') :: m' =>
      if k <? k' then let t := upd i (Some e) empty_tuple in ((k, t) :: m, t)
      else if k =? k' then let t := upd i (Some e) t' in ((k, t) :: m', t)
      else let (m1, t) := put k i e m' in ((k', t') :: m1, t)
  end.

(** exact_time.hpp:129-136 (isFull): all slots hold a message; returns them. *)
Fixpoint full (t : tuple) : option (list E) :=
  match t with
  | [] => Some []
  | None :: _ => None
  | Some e :: t' => match full t' with Some l => Some (e :: l) | None => None end
  end.

(** tuples_.erase(key), exact_time.hpp:151 *)
Definition erase (k : Z) (m : list (Z * tuple)) : list (Z * tuple) :=
  filter (fun kt => negb (fst kt =? k)) m.

(** [begin, upper_bound(k)) and [upper_bound(k), end) of a sorted map,
    exact_time.hpp:167-168 *)
Fixpoint split_upper_bound (k : Z) (m : list (Z * tuple)) : list (Z * tuple) * list (Z * tuple) :=
  match m with
  | [] => ([], [])
  | (k', t) :: m' =>
      if k' <=? k then let (a, b) := split_upper_bound k m' in ((k', t) :: a, b)
      else ([], m)
  end.

(** exact_time.hpp:180-184 (drop_range): drop callbacks in key order. *)
Definition drops (r : list (Z * tuple)) : list out := map (fun kt => Drop (snd kt)) r.

(** exact_time.hpp:139-161 (checkTuple) with clearOldTuples (165-169). *)
Definition checkTuple (t : tuple) (s : state) : state * list out :=
  let (s1, o1) :=
    match full t with
    | Some (e0 :: rest) =>
        let last := stamp e0 in
        let (old, rest_map) := split_upper_bound last (erase last (tuples s)) in
        (mkState rest_map last, Signal (e0 :: rest) :: drops old)
    | _ => (s, [])
    end in
  let sz := length (tuples s1) in
  if (0 <? queue_size)%nat && (queue_size <? sz)%nat then
    let d := (sz - queue_size)%nat in
    (mkState (skipn d (tuples s1)) (last_signal_time s1), o1 ++ drops (firstn d (tuples s1)))
  else (s1, o1).

(** exact_time.hpp:88-102 (add<i>) *)
Definition add (s : state) (ie : nat * E) : state * list out :=
  let (i, e) := ie in
  let (m, t) := put (stamp e) i e (tuples s) in
  checkTuple t (mkState m (last_signal_time s)).

(** A whole history: final state and the list of outputs of every addition. *)
Fixpoint run (s : state) (h : list (nat * E)) : state * list out :=
  match h with
  | [] => (s, [])
  | x :: h' => let (s1, o1) := add s x in
               let (s2, o2) := run s1 h' in (s2, o1 ++ o2)
  end.
End Exact.

Arguments state : clear implicits.
Arguments out : clear implicits.
