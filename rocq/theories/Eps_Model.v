(** Model of include/message_filters/sync_policies/approximate_epsilon_time.hpp
    (class ApproximateEpsilonTime).

    Simplifications: the number of inputs [n] is a parameter; stamps are
    nanoseconds in [Z] (all header stamps have the ROS clock source); Time +
    Duration is exact (see Time64_Model.v); messages are non-null; the
    mutex is treated in Sched_Model.v. *)
From Coq Require Import List Arith ZArith Bool.
From Verif Require Import Base RclTime.
Import ListNotations.
Local Open Scope Z_scope.

Section Eps.
Context {E : Type} (stamp : E -> Z).
Variable n : nat.           (* RealTypeCount::value = N_MESSAGES *)
Variable queue_size : nat.  (* approximate_epsilon_time.hpp:284 *)
Variable epsilon : Z.       (* approximate_epsilon_time.hpp:285 *)

(** approximate_epsilon_time.hpp:286-288: number_of_non_empty_events_, events_ *)
Record state := mkState { count : nat; events : list (list E) }.
(** approximate_epsilon_time.hpp:68-73 (constructor) *)
Definition init : state := mkState 0 (repeat [] n).

(** approximate_epsilon_time.hpp:118-136 (get_older_timestamp_between<Is>) *)
Definition older_between (cur : Z * option nat) (is : nat) (v : list E) : Z * option nat :=
  match v with
  | [] => cur
  | e :: _ => if stamp e <? fst cur then (stamp e, Some is) else cur
  end.

(** approximate_epsilon_time.hpp:138-153 (get_older_timestamp): a fold in index order
    from (int64 max, size_t max); [None] stands for the size_t max index. *)
Fixpoint older_from (is : nat) (vs : list (list E)) (cur : Z * option nat) : Z * option nat :=
  match vs with
  | [] => cur
  | v :: vs' => older_from (S is) vs' (older_between cur is v)
  end.
(** approximate_epsilon_time.hpp:138-153 (get_older_timestamp) *)
Definition get_older_timestamp (s : state) : Z * option nat :=
  older_from 0 (events s) (int64_max, None).

(** approximate_epsilon_time.hpp:155-176 (check_timestamp_within_epsilon<Is>) *)
Definition within (older : Z * option nat) (is : nat) (v : list E) : bool :=
  (match snd older with Some j => Nat.eqb is j | None => false end) ||
  match v with
  | [] => false
  | e :: _ => stamp e <=? fst older + epsilon
  end.

(** approximate_epsilon_time.hpp:178-193 (check_all_timestamp_within_epsilon) *)
Fixpoint all_within_from (older : Z * option nat) (is : nat) (vs : list (list E)) : bool :=
  match vs with
  | [] => true
  | v :: vs' => within older is v && all_within_from older (S is) vs'
  end.

(** approximate_epsilon_time.hpp:195-206 (erase_beginning_of_vector): new vector and
    how much number_of_non_empty_events_ decreases. *)
Definition erase_beginning (v : list E) : list E * nat :=
  match v with
  | [] => ([], 0%nat)
  | [_] => ([], 1%nat)
  | _ :: t => (t, 0%nat)
  end.

(** approximate_epsilon_time.hpp:220-239 (erase_beginning_of_vector_if_on_sync_with_ts) *)
Definition erase_if_on_sync (ts : Z) (v : list E) : list E * nat :=
  match v with
  | [] => ([], 0%nat)
  | e :: _ => if ts + epsilon <? stamp e then (v, 0%nat) else erase_beginning v
  end.

(** fold of either of the two over all vectors (208-218, 241-255) *)
Definition erase_all (f : list E -> list E * nat) (s : state) : state :=
  mkState (count s - list_sum (map (fun v => snd (f v)) (events s)))
          (map (fun v => fst (f v)) (events s)).

(** approximate_epsilon_time.hpp:257-266 (signal): .at(0) of every vector; throws
    std::out_of_range on an empty one. *)
Fixpoint fronts (vs : list (list E)) : option (list E) :=
  match vs with
  | [] => Some []
  | [] :: _ => None
  | (e :: _) :: vs' => match fronts vs' with Some l => Some (e :: l) | None => None end
  end.

(** approximate_epsilon_time.hpp:269-280 (process) *)
Fixpoint process (fuel : nat) (s : state) (outs : list (list E)) : res (state * list (list E)) :=
  if Nat.eqb (count s) n then
    match fuel with
    | O => Err OutOfFuel
    | S fuel' =>
        let old_ts := get_older_timestamp s in
        if all_within_from old_ts 0 (events s) then
          match fronts (events s) with
          | None => Err Thrown
          | Some set => process fuel' (erase_all erase_beginning s) (outs ++ [set])
          end
        else process fuel' (erase_all (erase_if_on_sync (fst old_ts)) s) outs
    end
  else Ok (s, outs).

(** No counterpart in the code: the number of stored messages, for the fuel *)
Definition total (s : state) : nat := list_sum (map (@length E) (events s)).

(** approximate_epsilon_time.hpp:96-113 (add<i>); the fuel is the number of stored
    messages plus one. *)
Definition add (s : state) (ie : nat * E) : res (state * list (list E)) :=
  let (i, e) := ie in
  match nth_error (events s) i with
  | None => Err UB
  | Some v =>
      let c := match v with [] => S (count s) | _ => count s end in
      let v' := v ++ [e] in
      let s1 := mkState c (upd i v' (events s)) in
      if Nat.eqb c n then process (S (total s1)) s1 []
      else if Nat.ltb queue_size (length v') then
        let (v2, d) := erase_beginning v' in
        Ok (mkState (c - d) (upd i v2 (events s1)), [])
      else Ok (s1, [])
  end.

(** A sequence of additions: the final state and all sets signalled, in order *)
Fixpoint run (s : state) (h : list (nat * E)) : res (state * list (list E)) :=
  match h with
  | [] => Ok (s, [])
  | x :: h' =>
      do '(s1, o1) <- add s x;
      do '(s2, o2) <- run s1 h';
      Ok (s2, o1 ++ o2)
  end.
End Eps.
Arguments state : clear implicits.
