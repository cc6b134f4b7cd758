(** Model of include/message_filters/sync_policies/approximate_time.hpp
    (class ApproximateTime).

    Simplifications: the number of inputs [n] is a parameter (N_MESSAGES >= 1);
    stamps and durations are nanoseconds in [Z] (all header stamps have the ROS clock
    source, so comparisons never throw, and their differences and sums stay in range,
    see RclTime.v); multiplying a duration by the double (1 + age_penalty_) is an
    arbitrary function [scale] on nanoseconds, about which individual theorems assume
    what they need (what the code computes is modelled in ApproxScale_Model.v); the parameters
    are fixed during a run (the setters are modelled in ApproxSet_Model.v); messages are
    non-null; the mutex is treated in Sched_Model.v; of the two log warnings only the flag that
    suppresses repetition is kept. *)
From Coq Require Import List Arith ZArith Bool.
From Verif Require Import Base RclTime.
Import ListNotations.
Local Open Scope Z_scope.

(** approximate_time.hpp:621, 636-637, 640 and the template parameter pack *)
Record cfg := mkCfg {
  n : nat;                  (* N_MESSAGES *)
  queue_size : nat;         (* queue_size_ *)
  max_interval : Z;         (* max_interval_duration_ *)
  scale : Z -> Z;           (* d |-> d * (1 + age_penalty_) *)
  bound : nat -> Z          (* inter_message_lower_bounds_ *)
}.

(** The concrete scaling used in examples: 1 + age_penalty = num / den, result
    truncated towards zero as in rclcpp::Duration::operator*. *)
Definition scale_by (num den : Z) (d : Z) : Z := Z.quot (d * num) den.

Section Approx.
Context {E : Type} (stamp : E -> Z) (c : cfg).

(** approximate_time.hpp:624-633, 639, 641; [pivot = None] is NO_PIVOT,
    [candidate = None] the empty Tuple(). *)
Record state := mkState {
  deques : list (list E);
  num : nat;
  past : list (list E);
  candidate : option (list E);
  cstart : Z;
  cend : Z;
  pivot : option nat;
  ptime : Z;
  dropped : list bool;
  warned : list bool
}.

(** approximate_time.hpp:70-84 (constructor) *)
Definition init : state :=
  mkState (repeat [] (n c)) 0 (repeat [] (n c)) None 0 0 None 0
          (repeat false (n c)) (repeat false (n c)).

(** approximate_time.hpp:86-110 (copy constructor, operator=): everything but
    candidate_. *)
Definition copy (s : state) : state :=
  mkState (deques s) (num s) (past s) None (cstart s) (cend s) (pivot s) (ptime s)
          (dropped s) (warned s).

(** No counterpart in the code: replacing deques_, num_non_empty_deques_ and past_ *)
Definition set_queues (dq : list (list E)) (k : nat) (pa : list (list E)) (s : state) : state :=
  mkState dq k pa (candidate s) (cstart s) (cend s) (pivot s) (ptime s) (dropped s) (warned s).

(** std::deque::empty and std::vector::empty *)
Definition is_nil {A} (l : list A) : bool := match l with [] => true | _ => false end.

(** approximate_time.hpp:316-383: what the increments of num_non_empty_deques_ in recover and
    recoverAndDelete add up to, from 0 *)
Fixpoint count_nonempty (qs : list (list E)) : nat :=
  match qs with
  | [] => 0%nat
  | q :: qs' => if is_nil q then count_nonempty qs' else S (count_nonempty qs')
  end.

(** No counterpart in the code: what the C++ code does for each index of two containers *)
Fixpoint map2 {A B C} (f : A -> B -> C) (la : list A) (lb : list B) : list C :=
  match la, lb with
  | a :: la', b :: lb' => f a b :: map2 f la' lb'
  | _, _ => []
  end.

(** approximate_time.hpp:117-162 (checkInterMessageBound<i>); [v] is past_[i] and [q]
    deques_[i] after the push.  Returns whether a warning is logged. *)
Definition bound_violated (i : nat) (v q : list E) : bool :=
  match rev q with
  | [] => false
  | m :: prevs =>
      match (match prevs with
             | [] => match rev v with [] => None | p :: _ => Some (stamp p) end
             | p :: _ => Some (stamp p)
             end) with
      | None => false
      | Some prev =>
          if stamp m <? prev then true else stamp m - prev <? bound c i
      end
  end.
(** approximate_time.hpp:117-162 (checkInterMessageBound<i>): the flag set with the warning *)
Definition check_inter_message_bound (i : nat) (s : state) : state :=
  if nth i (warned s) false then s
  else if bound_violated i (nth i (past s) []) (nth i (deques s) []) then
    mkState (deques s) (num s) (past s) (candidate s) (cstart s) (cend s) (pivot s)
            (ptime s) (dropped s) (upd i true (warned s))
  else s.

(** approximate_time.hpp:229-258 (dequeDeleteFront) *)
Definition delete_front (i : nat) (s : state) : res state :=
  match nth_error (deques s) i with
  | None => Err UB
  | Some [] => Err AssertFailed
  | Some (_ :: q) =>
      Ok (set_queues (upd i q (deques s)) (if is_nil q then num s - 1 else num s)%nat (past s) s)
  end.

(** approximate_time.hpp:260-292 (dequeMoveFrontToPast) *)
Definition move_front (i : nat) (s : state) : res state :=
  match nth_error (deques s) i with
  | None => Err UB
  | Some [] => Err AssertFailed
  | Some (x :: q) =>
      Ok (set_queues (upd i q (deques s)) (if is_nil q then num s - 1 else num s)%nat
                     (upd i (nth i (past s) [] ++ [x]) (past s)) s)
  end.

(** approximate_time.hpp:294-298 (assignFront); [None]: front() of an empty deque *)
Fixpoint fronts (qs : list (list E)) : option (list E) :=
  match qs with
  | [] => Some []
  | [] :: _ => None
  | (e :: _) :: qs' => match fronts qs' with Some l => Some (e :: l) | None => None end
  end.

(** approximate_time.hpp:300-314 (clear, makeCandidate) followed by the assignments of
    candidate_start_ and candidate_end_ at its two call sites (540-541, 557-558) *)
Definition make_candidate (st et : Z) (s : state) : res state :=
  match fronts (deques s) with
  | None => Err UB
  | Some hs =>
      Ok (mkState (deques s) (num s) (map (fun _ => []) (past s)) (Some hs) st et
                  (pivot s) (ptime s) (dropped s) (warned s))
  end.

(** approximate_time.hpp:340-359 (recoverAll, recover<i>()), with
    num_non_empty_deques_ reset to zero by the caller *)
Definition recover_all (s : state) : state :=
  let dq := map2 (@app E) (past s) (deques s) in
  set_queues dq (count_nonempty dq) (map (fun _ => []) (past s)) s.

(** approximate_time.hpp:316-338 (recoverAll(num_messages), recover<i>(num_messages)):
    the loop moves the last [k] elements of past_[i] to the front of deques_[i]. *)
Definition recover_back (k : nat) (v q : list E) : list E := skipn (length v - k) v ++ q.
(** approximate_time.hpp:322-338: what remains in past_[i] *)
Definition recover_keep (k : nat) (v : list E) : list E := firstn (length v - k) v.
(** approximate_time.hpp:328: assert(num_messages <= v.size()) for every input *)
Fixpoint all_le (ks : list nat) (vs : list (list E)) : bool :=
  match ks, vs with
  | k :: ks', v :: vs' => Nat.leb k (length v) && all_le ks' vs'
  | _, _ => true
  end.
(** approximate_time.hpp:316-338 (recoverAll(num_messages)), with num_non_empty_deques_ reset by the
    caller *)
Definition recover_some (ks : list nat) (s : state) : res state :=
  if all_le ks (past s) then
    let dq := map2 (fun kv q => recover_back (fst kv) (snd kv) q)
                   (map2 pair ks (past s)) (deques s) in
    Ok (set_queues dq (count_nonempty dq) (map2 recover_keep ks (past s)) s)
  else Err AssertFailed.

(** approximate_time.hpp:361-383 (recoverAndDeleteAll, recoverAndDelete<i>) *)
Fixpoint tails (qs : list (list E)) : option (list (list E)) :=
  match qs with
  | [] => Some []
  | [] :: _ => None
  | (_ :: t) :: qs' => match tails qs' with Some l => Some (t :: l) | None => None end
  end.

(** approximate_time.hpp:385-397 (publishCandidate).  With an empty candidate_ the
    signal would be given null messages: [UB]. *)
Definition publish (s : state) : res (state * list (list E)) :=
  match candidate s with
  | None => Err UB
  | Some set =>
      match tails (map2 (@app E) (past s) (deques s)) with
      | None => Err AssertFailed
      | Some dq =>
          Ok (mkState dq (count_nonempty dq) (map (fun _ => []) (past s)) None
                      (cstart s) (cend s) None (ptime s) (dropped s) (warned s), [set])
      end
  end.

(** approximate_time.hpp:399-441 (checkBoundary, getCandidateBoundary) and 471-481, 489-504
    (getVirtualCandidateBoundary): [e = true] the latest (the last one among equals),
    [e = false] the earliest (the first one among equals). *)
Fixpoint boundary_from (e : bool) (i : nat) (ts : list Z) (cur : nat * Z) : nat * Z :=
  match ts with
  | [] => cur
  | t :: ts' => boundary_from e (S i) ts' (if xorb (t <? snd cur) e then (i, t) else cur)
  end.
(** approximate_time.hpp:414-441 (getCandidateBoundary): index 0 is taken first *)
Definition boundary (e : bool) (ts : list Z) : nat * Z :=
  match ts with
  | [] => (0%nat, 0)
  | t :: ts' => boundary_from e 1 ts' (0%nat, t)
  end.

(** approximate_time.hpp:443-468 (getVirtualTime<i>) *)
Definition virtual_time (s : state) (i : nat) (v q : list E) : res Z :=
  match pivot s with
  | None => Err AssertFailed
  | Some _ =>
      match q with
      | x :: _ => Ok (stamp x)
      | [] =>
          match rev v with
          | [] => Err AssertFailed
          | l :: _ => if ptime s <? stamp l + bound c i then Ok (stamp l + bound c i)
                      else Ok (ptime s)
          end
      end
  end.

(** approximate_time.hpp:483-487 (getVirtualTimes) *)
Fixpoint virtual_times_from (s : state) (i : nat) (vs qs : list (list E)) : res (list Z) :=
  match vs, qs with
  | v :: vs', q :: qs' =>
      do t <- virtual_time s i v q;
      do ts <- virtual_times_from s (S i) vs' qs';
      Ok (t :: ts)
  | _, _ => Ok []
  end.
(** approximate_time.hpp:483-487 (getVirtualTimes) *)
Definition virtual_times (s : state) : res (list Z) :=
  virtual_times_from s 0 (past s) (deques s).

(** approximate_time.hpp:580-615: the while(1) of the virtual search.  [before] is
    num_non_empty_deques_before_virtual_search, [mv] is num_virtual_moves. *)
Fixpoint virtual_search (fuel : nat) (before : nat) (mv : list nat) (s : state)
  : res (state * list (list E)) :=
  match fuel with
  | O => Err OutOfFuel
  | S fuel' =>
      do ts <- virtual_times s;
      let '(_, et) := boundary true ts in
      let '(si, st) := boundary false ts in
      if ptime s - cstart s <=? scale c (et - cend s) then publish s
      else if scale c (et - cend s) <? st - cstart s then
        do s' <- recover_some mv s;
        if Nat.eqb before (num s') then Ok (s', []) else Err AssertFailed
      else if match pivot s with Some p => Nat.eqb si p | None => false end then Err AssertFailed
      else if negb (st <? ptime s) then Err AssertFailed
      else
        do s' <- move_front si s;
        virtual_search fuel' before (upd si (S (nth si mv 0%nat)) mv) s'
  end.

(** No counterpart in the code: the number of queued messages, for the fuel *)
Fixpoint total (qs : list (list E)) : nat :=
  match qs with [] => 0%nat | q :: qs' => (length q + total qs')%nat end.

(** approximate_time.hpp:563-616: the part of the loop body of process() after a
    candidate has been chosen and the front of [si] moved.  The fuel of the virtual
    search is the number of queued messages plus one. *)
Definition conclude (si : nat) (et : Z) (s : state) : res (state * list (list E)) :=
  match pivot s with
  | None => Err AssertFailed
  | Some p =>
      if Nat.eqb si p then publish s
      else if ptime s - cstart s <=? scale c (et - cend s) then publish s
      else if Nat.ltb (num s) (n c) then
        virtual_search (S (total (deques s))) (num s) (repeat 0%nat (n c)) s
      else Ok (s, [])
  end.

(** approximate_time.hpp:517-523: has_dropped_messages_[i] = false for i <> end_index *)
Fixpoint keep_only_from (i k : nat) (l : list bool) : list bool :=
  match l with
  | [] => []
  | b :: l' => (if Nat.eqb i k then b else false) :: keep_only_from (S i) k l'
  end.
(** approximate_time.hpp:517-523: the loop over has_dropped_messages_ *)
Definition clear_dropped (k : nat) (s : state) : state :=
  mkState (deques s) (num s) (past s) (candidate s) (cstart s) (cend s) (pivot s) (ptime s)
          (keep_only_from 0 k (dropped s)) (warned s).

(** approximate_time.hpp:542-543 *)
Definition set_pivot (p : nat) (t : Z) (s : state) : state :=
  mkState (deques s) (num s) (past s) (candidate s) (cstart s) (cend s) (Some p) t
          (dropped s) (warned s).

(** approximate_time.hpp:512-616: one iteration of the while loop of process() *)
Definition iteration (s : state) : res (state * list (list E)) :=
  match fronts (deques s) with
  | None => Err UB
  | Some hs =>
      let '(ei, et) := boundary true (map stamp hs) in
      let '(si, st) := boundary false (map stamp hs) in
      let s0 := clear_dropped ei s in
      match pivot s0 with
      | None =>
          if max_interval c <? et - st then
            do s1 <- delete_front si s0; Ok (s1, [])
          else if nth ei (dropped s0) false then
            do s1 <- delete_front si s0; Ok (s1, [])
          else
            do s1 <- make_candidate st et s0;
            do s2 <- move_front si (set_pivot ei et s1);
            conclude si et s2
      | Some _ =>
          if st - cstart s0 <=? scale c (et - cend s0) then
            do s2 <- move_front si s0;
            conclude si et s2
          else
            do s1 <- make_candidate st et s0;
            do s2 <- move_front si s1;
            conclude si et s2
      end
  end.

(** approximate_time.hpp:508-618 (process) *)
Fixpoint process (fuel : nat) (s : state) : res (state * list (list E)) :=
  if Nat.eqb (num s) (n c) then
    match fuel with
    | O => Err OutOfFuel
    | S fuel' =>
        do '(s1, o1) <- iteration s;
        do '(s2, o2) <- process fuel' s1;
        Ok (s2, o1 ++ o2)
    end
  else Ok (s, []).

(** All messages held for each input. *)
Definition pending (s : state) : list (list E) := map2 (@app E) (past s) (deques s).

(** No counterpart in the code: a bound on the iterations of process(), proved sufficient in
    Approx_Proofs.v *)
Definition fuel_for (s : state) : nat :=
  let t := total (pending s) in S (S t * S t).

(** approximate_time.hpp:168-181: the first half of add<i> *)
Definition add_process (s : state) (i : nat) (e : E) : res (state * list (list E)) :=
  match nth_error (deques s) i with
  | None => Err UB
  | Some q =>
      let s1 := set_queues (upd i (q ++ [e]) (deques s))
                           (if is_nil q then S (num s) else num s) (past s) s in
      if is_nil q then
        if Nat.eqb (num s1) (n c) then process (fuel_for s1) s1 else Ok (s1, [])
      else Ok (check_inter_message_bound i s1, [])
  end.

(** approximate_time.hpp:182-200: the second half of add<i>.  Note that
    num_non_empty_deques_ is not updated by the pop_front at line 191. *)
Definition add_overflow (s : state) (i : nat) : res (state * list (list E)) :=
  if Nat.ltb (queue_size c) (length (nth i (deques s) []) + length (nth i (past s) [])) then
    let s1 := recover_all s in
    match nth i (deques s1) [] with
    | [] => Err AssertFailed
    | _ :: q =>
        let s2 := mkState (upd i q (deques s1)) (num s1) (past s1) (candidate s1) (cstart s1)
                          (cend s1) (pivot s1) (ptime s1) (upd i true (dropped s1)) (warned s1) in
        match pivot s2 with
        | None => Ok (s2, [])
        | Some _ =>
            let s3 := mkState (deques s2) (num s2) (past s2) None (cstart s2) (cend s2) None
                              (ptime s2) (dropped s2) (warned s2) in
            process (fuel_for s3) s3
        end
    end
  else Ok (s, []).

(** approximate_time.hpp:165-201 (add<i>) *)
Definition add (s : state) (ie : nat * E) : res (state * list (list E)) :=
  do '(s1, o1) <- add_process s (fst ie) (snd ie);
  do '(s2, o2) <- add_overflow s1 (fst ie);
  Ok (s2, o1 ++ o2).

(** A sequence of additions: the final state and all sets signalled, in order *)
Fixpoint run (s : state) (h : list (nat * E)) : res (state * list (list E)) :=
  match h with
  | [] => Ok (s, [])
  | x :: h' =>
      do '(s1, o1) <- add s x;
      do '(s2, o2) <- run s1 h';
      Ok (s2, o1 ++ o2)
  end.
End Approx.
Arguments state : clear implicits.
