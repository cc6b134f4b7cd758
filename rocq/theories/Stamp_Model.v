(** Messages whose header has no valid time.  message_traits.hpp:95-102: TimeStamp<M>::value is
    rclcpp::Time(m.header.stamp, RCL_ROS_TIME), and this constructor throws if the seconds are
    negative (RclTime.time_of_header).  Here are the functions of the other models that read
    stamps, with [stamp e = None] where reading the stamp of [e] throws.  The exception leaves the
    function at that point; the mutexes are released by std::lock_guard, what remains is the state
    as it was then.  Every function returns the new state, what it has passed on and whether an
    exception leaves it.  LatestTime reads no stamps. *)
From Coq Require Import List Arith ZArith Bool.
From Verif Require Import Base RclTime.
From Verif Require Cache_Model Seq_Model Aligner_Model Exact_Model Eps_Model Approx_Model.
Import ListNotations.
Local Open Scope Z_scope.

(** A sequence of calls on a filter; every exception is caught by the caller, who goes on.
    The trace has one entry per call: what it passed on, and whether it threw. *)
Section Run.
Context {S I O : Type} (step : S -> I -> res (S * list O * bool)).
(** No counterpart in the code: the calls one after the other *)
Fixpoint run_x (s : S) (h : list I) : res (S * list (list O * bool)) :=
  match h with
  | [] => Ok (s, [])
  | x :: h' =>
      do '(s1, o, b) <- step s x;
      do '(s2, tr) <- run_x s1 h';
      Ok (s2, (o, b) :: tr)
  end.
End Run.

(** No counterpart in the code: the stamps of all elements of a list, read one after the other *)
Fixpoint stamps_of {E T} (stamp : E -> option T) (l : list E) : option (list T) :=
  match l with
  | [] => Some []
  | e :: l' => match stamp e, stamps_of stamp l' with Some t, Some ts => Some (t :: ts) | _, _ => None end
  end.

Section Cache.
Import Cache_Model.
Context {E : Type} (stamp : E -> option time).
(** cache.hpp:147-155: the loop of add; [t] is evt_stamp *)
Fixpoint insert_back_x (t : time) (e : E) (rl : list E) : res (list E) :=
  match rl with
  | [] => Ok [e]
  | x :: r =>
      match stamp x with
      | None => Err Thrown
      | Some tx =>
          do g <- time_gt tx t;
          if g then (do r' <- insert_back_x t e r; Ok (x :: r')) else Ok (e :: x :: r)
      end
  end.

(** cache.hpp:125-159 (add): the old messages are popped (135-137) before evt_stamp is read (147) *)
Definition cache_add_x (s : state E) (e : E) : res (state E * list E * bool) :=
  match cap s with
  | None => Err UB
  | Some c =>
      do l <- pop_while c (contents s);
      match stamp e with
      | None => Ok (mkState (cap s) l, [], true)
      | Some t =>
          match insert_back_x t e (rev l) with
          | Ok rl => Ok (mkState (cap s) (rev rl), [e], false)
          | Err Thrown => Ok (mkState (cap s) l, [], true)
          | Err x => Err x
          end
      end
  end.
End Cache.

Section Seq.
Import Seq_Model.
Context {E : Type} (stamp : E -> option time) (queue_size : nat) (delay : Z).
(** time_sequencer.hpp:172-181 (MessageSort) *)
Definition sort_lt_x (a b : E) : res bool :=
  match stamp a, stamp b with Some ta, Some tb => time_lt ta tb | _, _ => Err Thrown end.

(** std::multiset::insert, as in Seq_Model.ins *)
Fixpoint seq_ins_x (e : E) (l : list E) : res (list E) :=
  match l with
  | [] => Ok [e]
  | x :: t =>
      do b <- sort_lt_x e x;
      if b then Ok (e :: l) else do t' <- seq_ins_x e t; Ok (x :: t')
  end.

(** std::multiset::erase(const key_type &), as in Seq_Model.erase_key *)
Fixpoint erase_key_x (k : E) (l : list E) : res (list E) :=
  match l with
  | [] => Ok []
  | x :: t =>
      do lt1 <- sort_lt_x x k;
      do lt2 <- sort_lt_x k x;
      do t' <- erase_key_x k t;
      Ok (if negb lt1 && negb lt2 then t' else x :: t')
  end.

(** time_sequencer.hpp:146-160 (add): an exception of erase comes after the insertion *)
Definition seq_add_x (s : state E) (e : E) : state E * bool :=
  match stamp e with
  | None => (s, true)
  | Some t =>
      match time_lt t (last_time s) with
      | Err _ => (s, true)
      | Ok true => (s, false)
      | Ok false =>
          match seq_ins_x e (messages s) with
          | Err _ => (s, true)
          | Ok ms =>
              if negb (Nat.eqb queue_size 0) && Nat.ltb queue_size (length ms) then
                match ms with
                | [] => (s, true)
                | k :: _ =>
                    match erase_key_x k ms with
                    | Ok ms' => (mkState ms' (last_time s), false)
                    | Err _ => (mkState ms (last_time s), true)
                    end
                end
              else (mkState ms (last_time s), false)
          end
      end
  end.

(** time_sequencer.hpp:190-219 (dispatch): with an exception in the loop, what was collected in
    to_call is lost *)
Fixpoint dispatch_x (nows : nat -> Z) (ms : list E) (last : time) : state E * list E * bool :=
  match ms with
  | [] => (mkState [] last, [], false)
  | e :: r =>
      match stamp e with
      | None => (mkState ms last, [], true)
      | Some t =>
          match time_le (time_add t delay) (mkTime (nows 0%nat) SystemClock) with
          | Err _ => (mkState ms last, [], true)
          | Ok false => (mkState ms last, [], false)
          | Ok true =>
              let '(s', outs, b) := dispatch_x (fun k => nows (S k)) r t in
              (s', if b then [] else e :: outs, b)
          end
      end
  end.

(** One call: add (146-160) or dispatch (190-219) by the timer *)
Definition seq_step_x (s : state E) (o : op E) : res (state E * list E * bool) :=
  match o with
  | Add e => let (s', b) := seq_add_x s e in Ok (s', [], b)
  | Tick nows => Ok (dispatch_x nows (messages s) (last_time s))
  end.
End Seq.

Section Aligner.
Import Aligner_Model.
Context {E : Type} (stamp : E -> option Z) (timeout : Z).
(** std::multiset::insert with EventSort (input_aligner.hpp:243-252); [None]: a comparison throws *)
Fixpoint aligner_ins_x (t : Z) (e : E) (l : list E) : option (list E) :=
  match l with
  | [] => Some [e]
  | x :: r =>
      match stamp x with
      | None => None
      | Some tx =>
          if t <? tx then Some (e :: l)
          else match aligner_ins_x t e r with Some r' => Some (x :: r') | None => None end
      end
  end.

(** input_aligner.hpp:339-364 (addEvent<I>): the stamp is read first (344-345) *)
Definition aligner_add_x (s : state E) (i : nat) (e : E) : res (state E * bool) :=
  match nth_error (queues s) i with
  | None => Err UB
  | Some q =>
      match stamp e with
      | None => Ok (s, true)
      | Some t =>
          if t <? last_out s then
            Ok (mkState (upd i (msg_dropped q) (queues s)) (last_in s) (last_out s), false)
          else
            let li := if last_in s <? t then t else last_in s in
            match aligner_ins_x t e (evs q) with
            | None => Ok (mkState (queues s) li (last_out s), true)
            | Some l => Ok (mkState (upd i (set_evs l q) (queues s)) li (last_out s), false)
            end
      end
  end.

(** input_aligner.hpp:264-277 (firstTimeStamp), with its side effects; no stamp: it throws *)
Definition first_time_stamp_x (q : queue E) : queue E * option Z :=
  match evs q with
  | e :: _ =>
      match stamp e with
      | None => (q, None)
      | Some t => (mkQueue (evs q) (t + period q) (period q) true (processed q) (dropped q), Some t)
      end
  | [] => if active q then (q, Some (next_ts q)) else (q, Some int64_max)
  end.

(** input_aligner.hpp:379-380: firstTimeStamp of the queues in order, up to the first exception *)
Fixpoint first_time_stamps_x (qs : list (queue E)) : list (queue E) * option (list Z) :=
  match qs with
  | [] => ([], Some [])
  | q :: r =>
      match first_time_stamp_x q with
      | (q', None) => (q' :: r, None)
      | (q', Some t) =>
          let (r', ts) := first_time_stamps_x r in
          (q' :: r', match ts with Some l => Some (t :: l) | None => None end)
      end
  end.

(** input_aligner.hpp:375-414 (dispatchFirstMessage, both overloads) *)
Definition dispatch_first_x (s : state E) : res (state E * list (nat * E) * bool * bool) :=
  match first_time_stamps_x (queues s) with
  | (qs, None) => Ok (mkState qs (last_in s) (last_out s), [], false, true)
  | (qs, Some ts) =>
      let idx := first_sample_idx ts in
      match nth_error qs idx with
      | None => Err UB
      | Some q =>
          match evs q with
          | e :: _ =>
              match stamp e with
              | None => Ok (mkState qs (last_in s) (last_out s), [], false, true)
              | Some t => Ok (mkState (upd idx (pop_first q) qs) (last_in s) t, [(idx, e)], true, false)
              end
          | [] =>
              match first_time_stamp_x q with
              | (_, None) => Ok (mkState qs (last_in s) (last_out s), [], false, true)
              | (_, Some t) =>
                  if timeout <=? last_in s - t then
                    Ok (mkState (upd idx (set_active false q) qs) (last_in s) (last_out s), [], true, false)
                  else Ok (mkState qs (last_in s) (last_out s), [], false, false)
              end
          end
      end
  end.

(** input_aligner.hpp:236-238, the while loop *)
Fixpoint aligner_loop_x (fuel : nat) (s : state E) : res (state E * list (nat * E) * bool) :=
  match fuel with
  | O => Err OutOfFuel
  | S fuel' =>
      do '(s1, o1, again, b1) <- dispatch_first_x s;
      if (b1 : bool) then Ok (s1, o1, true)
      else if (again : bool) then
        do '(s2, o2, b2) <- aligner_loop_x fuel' s1;
        Ok (s2, o1 ++ o2, b2)
      else Ok (s1, o1, false)
  end.

(** input_aligner.hpp:339-364 (addEvent<I>), 196-200 (setInputPeriod<I>), 226-240 (dispatchMessages) *)
Definition aligner_step_x (s : state E) (o : op E) : res (state E * list (nat * E) * bool) :=
  match o with
  | Add i e => do '(s', b) <- aligner_add_x s i e; Ok (s', [], b)
  | SetPeriod i p => do s' <- set_period s i p; Ok (s', [], false)
  | Dispatch => if inputs_available s then aligner_loop_x (fuel_for s) s else Ok (s, [], false)
  end.
End Aligner.

Section Exact.
Import Exact_Model.
Context {E : Type} (stamp : E -> option Z) (n queue_size : nat).
(** exact_time.hpp:139-161 (checkTuple) with clearOldTuples (165-169): the stamp of the first
    message is read after the callback (149) *)
Definition checkTuple_x (t : list (option E)) (s : state E) : state E * list (out E) * bool :=
  let trim s1 o1 :=
    let sz := length (tuples s1) in
    if (0 <? queue_size)%nat && (queue_size <? sz)%nat then
      let d := (sz - queue_size)%nat in
      (mkState (skipn d (tuples s1)) (last_signal_time s1), o1 ++ drops (firstn d (tuples s1)), false)
    else (s1, o1, false) in
  match full t with
  | Some (e0 :: rest) =>
      match stamp e0 with
      | None => (s, [Signal (e0 :: rest)], true)
      | Some last =>
          let (old, rest_map) := split_upper_bound last (erase last (tuples s)) in
          trim (mkState rest_map last) (Signal (e0 :: rest) :: drops old)
      end
  | _ => trim s []
  end.

(** exact_time.hpp:88-102 (add<i>): the stamp is read before the map is changed *)
Definition exact_add_x (s : state E) (ie : nat * E) : res (state E * list (out E) * bool) :=
  let (i, e) := ie in
  match stamp e with
  | None => Ok (s, [], true)
  | Some k =>
      let (m, t) := put n k i e (tuples s) in
      Ok (checkTuple_x t (mkState m (last_signal_time s)))
  end.
End Exact.

Section Eps.
Import Eps_Model.
Context {E : Type} (stamp : E -> option Z) (n queue_size : nat) (epsilon : Z).
(** approximate_epsilon_time.hpp:118-153 (get_older_timestamp): a fold in index order; [None]: some
    stamp read throws *)
Fixpoint older_from_x (is : nat) (vs : list (list E)) (cur : Z * option nat) : option (Z * option nat) :=
  match vs with
  | [] => Some cur
  | [] :: vs' => older_from_x (S is) vs' cur
  | (e :: _) :: vs' =>
      match stamp e with
      | None => None
      | Some t => older_from_x (S is) vs' (if t <? fst cur then (t, Some is) else cur)
      end
  end.

(** approximate_epsilon_time.hpp:155-176 (check_timestamp_within_epsilon<Is>) *)
Definition within_x (older : Z * option nat) (is : nat) (v : list E) : option bool :=
  if match snd older with Some j => Nat.eqb is j | None => false end then Some true
  else match v with
       | [] => Some false
       | e :: _ => match stamp e with Some t => Some (t <=? fst older + epsilon) | None => None end
       end.

(** approximate_epsilon_time.hpp:178-193 (check_all_timestamp_within_epsilon): [&=] evaluates all
    of them *)
Fixpoint all_within_x (older : Z * option nat) (is : nat) (vs : list (list E)) : option bool :=
  match vs with
  | [] => Some true
  | v :: vs' =>
      match within_x older is v, all_within_x older (S is) vs' with
      | Some a, Some b => Some (a && b)
      | _, _ => None
      end
  end.

(** approximate_epsilon_time.hpp:220-255 (erase_old_events_if_on_sync_with_ts): the vectors in order
    up to the first exception, how much number_of_non_empty_events_ decreases, the exception *)
Fixpoint erase_sync_x (ts : Z) (vs : list (list E)) : list (list E) * nat * bool :=
  match vs with
  | [] => ([], 0%nat, false)
  | [] :: vs' => let '(r, d, b) := erase_sync_x ts vs' in ([] :: r, d, b)
  | (e :: v) :: vs' =>
      match stamp e with
      | None => (vs, 0%nat, true)
      | Some t =>
          let (v', d') := if ts + epsilon <? t then (e :: v, 0%nat) else erase_beginning (e :: v) in
          let '(r, d, b) := erase_sync_x ts vs' in (v' :: r, (d' + d)%nat, b)
      end
  end.

(** approximate_epsilon_time.hpp:269-280 (process) *)
Fixpoint eps_process_x (fuel : nat) (s : state E) : res (state E * list (list E) * bool) :=
  if Nat.eqb (count s) n then
    match fuel with
    | O => Err OutOfFuel
    | S fuel' =>
        match older_from_x 0 (events s) (int64_max, None) with
        | None => Ok (s, [], true)
        | Some old_ts =>
            match all_within_x old_ts 0 (events s) with
            | None => Ok (s, [], true)
            | Some true =>
                match fronts (events s) with
                | None => Err Thrown
                | Some set =>
                    do '(s', o, b) <- eps_process_x fuel' (erase_all erase_beginning s);
                    Ok (s', set :: o, b)
                end
            | Some false =>
                let '(vs, d, b) := erase_sync_x (fst old_ts) (events s) in
                let s1 := mkState (count s - d) vs in
                if b then Ok (s1, [], true) else eps_process_x fuel' s1
            end
        end
    end
  else Ok (s, [], false).

(** approximate_epsilon_time.hpp:96-113 (add<i>): no stamp is read before the message is stored *)
Definition eps_add_x (s : state E) (ie : nat * E) : res (state E * list (list E) * bool) :=
  let (i, e) := ie in
  match nth_error (events s) i with
  | None => Err UB
  | Some v =>
      let c := match v with [] => S (count s) | _ => count s end in
      let v' := v ++ [e] in
      let s1 := mkState c (upd i v' (events s)) in
      if Nat.eqb c n then eps_process_x (S (total s1)) s1
      else if Nat.ltb queue_size (length v') then
        let (v2, d) := erase_beginning v' in
        Ok (mkState (c - d) (upd i v2 (events s1)), [], false)
      else Ok (s1, [], false)
  end.
End Eps.

Section Approx.
Import Approx_Model.
Context {E : Type} (stamp : E -> option Z) (c : cfg).
(** approximate_time.hpp:117-162 (checkInterMessageBound<i>); [v] is past_[i] and [q] deques_[i]
    after the push.  [None]: reading a stamp throws. *)
Definition bound_violated_x (i : nat) (v q : list E) : option bool :=
  match rev q with
  | [] => Some false
  | m :: prevs =>
      match stamp m with
      | None => None
      | Some tm =>
          match (match prevs with [] => rev v | _ => prevs end) with
          | [] => Some false
          | p :: _ =>
              match stamp p with
              | None => None
              | Some prev => Some (if tm <? prev then true else tm - prev <? bound c i)
              end
          end
      end
  end.
(** approximate_time.hpp:117-162 (checkInterMessageBound<i>): the new state and the exception *)
Definition check_bound_x (i : nat) (s : state E) : state E * bool :=
  if nth i (warned s) false then (s, false)
  else match bound_violated_x i (nth i (past s) []) (nth i (deques s) []) with
       | None => (s, true)
       | Some true => (mkState (deques s) (num s) (past s) (candidate s) (cstart s) (cend s) (pivot s)
                               (ptime s) (dropped s) (upd i true (warned s)), false)
       | Some false => (s, false)
       end.

(** approximate_time.hpp:443-468 (getVirtualTime<i>); [Ok None]: reading a stamp throws *)
Definition virtual_time_x (s : state E) (i : nat) (v q : list E) : res (option Z) :=
  match pivot s with
  | None => Err AssertFailed
  | Some _ =>
      match q with
      | x :: _ => Ok (stamp x)
      | [] =>
          match rev v with
          | [] => Err AssertFailed
          | l :: _ =>
              match stamp l with
              | None => Ok None
              | Some t => Ok (Some (if ptime s <? t + bound c i then t + bound c i else ptime s))
              end
          end
      end
  end.

(** approximate_time.hpp:483-487 (getVirtualTimes), in order up to the first exception *)
Fixpoint virtual_times_x (s : state E) (i : nat) (vs qs : list (list E)) : res (option (list Z)) :=
  match vs, qs with
  | v :: vs', q :: qs' =>
      do t <- virtual_time_x s i v q;
      match t with
      | None => Ok None
      | Some z =>
          do ts <- virtual_times_x s (S i) vs' qs';
          match ts with None => Ok None | Some l => Ok (Some (z :: l)) end
      end
  | _, _ => Ok (Some [])
  end.

(** approximate_time.hpp:385-397 (publishCandidate) reads no stamps *)
Definition publish_x (s : state E) : res (state E * list (list E) * bool) :=
  do '(s', o) <- publish s; Ok (s', o, false).

(** approximate_time.hpp:580-615: the virtual search; an exception leaves the virtual moves done *)
Fixpoint virtual_search_x (fuel : nat) (before : nat) (mv : list nat) (s : state E)
  : res (state E * list (list E) * bool) :=
  match fuel with
  | O => Err OutOfFuel
  | S fuel' =>
      do ots <- virtual_times_x s 0 (past s) (deques s);
      match ots with
      | None => Ok (s, [], true)
      | Some ts =>
          let '(_, et) := boundary true ts in
          let '(si, st) := boundary false ts in
          if ptime s - cstart s <=? scale c (et - cend s) then publish_x s
          else if scale c (et - cend s) <? st - cstart s then
            do s' <- recover_some mv s;
            if Nat.eqb before (num s') then Ok (s', [], false) else Err AssertFailed
          else if match pivot s with Some p => Nat.eqb si p | None => false end then Err AssertFailed
          else if negb (st <? ptime s) then Err AssertFailed
          else
            do s' <- move_front si s;
            virtual_search_x fuel' before (upd si (S (nth si mv 0%nat)) mv) s'
      end
  end.

(** approximate_time.hpp:563-616: the end of the loop body *)
Definition conclude_x (si : nat) (et : Z) (s : state E) : res (state E * list (list E) * bool) :=
  match pivot s with
  | None => Err AssertFailed
  | Some p =>
      if Nat.eqb si p then publish_x s
      else if ptime s - cstart s <=? scale c (et - cend s) then publish_x s
      else if Nat.ltb (num s) (n c) then
        virtual_search_x (S (total (deques s))) (num s) (repeat 0%nat (n c)) s
      else Ok (s, [], false)
  end.

(** approximate_time.hpp:512-616: one iteration of process(); getCandidateEnd and getCandidateStart
    (514-516) read the stamps of all fronts before anything is changed *)
Definition iteration_x (s : state E) : res (state E * list (list E) * bool) :=
  match fronts (deques s) with
  | None => Err UB
  | Some hs =>
      match stamps_of stamp hs with
      | None => Ok (s, [], true)
      | Some ts =>
          let '(ei, et) := boundary true ts in
          let '(si, st) := boundary false ts in
          let s0 := clear_dropped ei s in
          match pivot s0 with
          | None =>
              if max_interval c <? et - st then
                do s1 <- delete_front si s0; Ok (s1, [], false)
              else if nth ei (dropped s0) false then
                do s1 <- delete_front si s0; Ok (s1, [], false)
              else
                do s1 <- make_candidate st et s0;
                do s2 <- move_front si (set_pivot ei et s1);
                conclude_x si et s2
          | Some _ =>
              if st - cstart s0 <=? scale c (et - cend s0) then
                do s2 <- move_front si s0;
                conclude_x si et s2
              else
                do s1 <- make_candidate st et s0;
                do s2 <- move_front si s1;
                conclude_x si et s2
          end
      end
  end.

(** approximate_time.hpp:508-618 (process) *)
Fixpoint approx_process_x (fuel : nat) (s : state E) : res (state E * list (list E) * bool) :=
  if Nat.eqb (num s) (n c) then
    match fuel with
    | O => Err OutOfFuel
    | S fuel' =>
        do '(s1, o1, b1) <- iteration_x s;
        if (b1 : bool) then Ok (s1, o1, true)
        else
          do '(s2, o2, b2) <- approx_process_x fuel' s1;
          Ok (s2, o1 ++ o2, b2)
    end
  else Ok (s, [], false).

(** approximate_time.hpp:168-181: the first half of add<i>; no stamp is read before the message is
    stored *)
Definition approx_add_process_x (s : state E) (i : nat) (e : E) : res (state E * list (list E) * bool) :=
  match nth_error (deques s) i with
  | None => Err UB
  | Some q =>
      let s1 := set_queues (upd i (q ++ [e]) (deques s))
                           (if is_nil q then S (num s) else num s) (past s) s in
      if is_nil q then
        if Nat.eqb (num s1) (n c) then approx_process_x (fuel_for s1) s1 else Ok (s1, [], false)
      else let (s2, b) := check_bound_x i s1 in Ok (s2, [], b)
  end.

(** approximate_time.hpp:182-200: the second half of add<i> *)
Definition approx_add_overflow_x (s : state E) (i : nat) : res (state E * list (list E) * bool) :=
  if Nat.ltb (queue_size c) (length (nth i (deques s) []) + length (nth i (past s) [])) then
    let s1 := recover_all s in
    match nth i (deques s1) [] with
    | [] => Err AssertFailed
    | _ :: q =>
        let s2 := mkState (upd i q (deques s1)) (num s1) (past s1) (candidate s1) (cstart s1)
                          (cend s1) (pivot s1) (ptime s1) (upd i true (dropped s1)) (warned s1) in
        match pivot s2 with
        | None => Ok (s2, [], false)
        | Some _ =>
            let s3 := mkState (deques s2) (num s2) (past s2) None (cstart s2) (cend s2) None
                              (ptime s2) (dropped s2) (warned s2) in
            approx_process_x (fuel_for s3) s3
        end
    end
  else Ok (s, [], false).

(** approximate_time.hpp:165-201 (add<i>): an exception from the first half skips the second *)
Definition approx_add_x (s : state E) (ie : nat * E) : res (state E * list (list E) * bool) :=
  do '(s1, o1, b1) <- approx_add_process_x s (fst ie) (snd ie);
  if (b1 : bool) then Ok (s1, o1, true)
  else
    do '(s2, o2, b2) <- approx_add_overflow_x s1 (fst ie);
    Ok (s2, o1 ++ o2, b2).
End Approx.
