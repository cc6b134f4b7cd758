(** Filters whose callbacks may throw: the functions of the other models that call user
    callbacks, with the exception leaving them at the point of the call.  The mutexes are
    released by std::lock_guard, so that an exception leaves no lock behind (the lock held by
    Signal1::call and Signal9::call likewise); what remains is the state as it was when the
    callback was called.

    [th k] says whether the callback called for the [k]-th output of this call throws.
    (Signal1::call and Signal9::call stop at the first callback that throws, signal1.hpp:104-114;
    here the callbacks of one signal count as one.)  Every function returns the new state, the
    calls made (the throwing one included, as the last one) and whether an exception leaves it. *)
From Coq Require Import List Arith ZArith Bool.
From Verif Require Import Base RclTime.
From Verif Require Cache_Model Latest_Model Seq_Model Aligner_Model Exact_Model Eps_Model Approx_Model.
Import ListNotations.
Local Open Scope Z_scope.

(** No counterpart in the code: what the [k]-th callback of a call does *)
Definition oracle := nat -> bool.
(** No counterpart in the code: the oracle for the calls after the first [d] *)
Definition later (d : nat) (th : oracle) : oracle := fun k => th (d + k)%nat.

(** A loop calling the callbacks for the elements of [l] in order
    (time_sequencer.hpp:212-218, exact_time.hpp:180-184): it ends with the first exception. *)
Fixpoint signal_all {O} (th : oracle) (l : list O) : list O * bool :=
  match l with
  | [] => ([], false)
  | x :: t =>
      if th 0%nat then ([x], true)
      else let (o, b) := signal_all (later 1 th) t in (x :: o, b)
  end.

(** A sequence of calls on a filter; every exception is caught by the caller, who goes on.
    The trace has one entry per call: the callbacks called, and whether it threw. *)
Section Run.
Context {S I O : Type} (step : oracle -> S -> I -> res (S * list O * bool)).
(** No counterpart in the code: the calls one after the other *)
Fixpoint run_t (s : S) (h : list (I * oracle)) : res (S * list (list O * bool)) :=
  match h with
  | [] => Ok (s, [])
  | (x, th) :: h' =>
      do '(s1, o, b) <- step th s x;
      do '(s2, tr) <- run_t s1 h';
      Ok (s2, (o, b) :: tr)
  end.
End Run.

(** cache.hpp:125-159 (add): the message is stored under the lock, signalMessage is called afterwards;
    the queries call no callback *)
Definition cache_step_t {E} (stamp : E -> time) (th : oracle) (s : Cache_Model.state E) (o : Cache_Model.op E)
  : res (Cache_Model.state E * list (Cache_Model.out E) * bool) :=
  let (s', x) := Cache_Model.step stamp s o in
  Ok (s', [x], match x with
               | Cache_Model.Forwarded _ => th 0%nat
               | Cache_Model.Failed _ => true
               | _ => false
               end).

(** latest_time.hpp:144-168 (add<i>): publish() is the last statement; find_pivot may throw, too *)
Definition latest_step_t {E D} (f : Latest_Model.fops D) (n : nat) (default : Latest_Model.config D)
  (th : oracle) (s : Latest_Model.state E D) (o : Latest_Model.op E D)
  : res (Latest_Model.state E D * list (Latest_Model.outcome E) * bool) :=
  do '(s', x) <- Latest_Model.step f n default s o;
  Ok (s', [x], match x with
               | Latest_Model.Published _ => th 0%nat
               | Latest_Model.Threw => true
               | Latest_Model.Quiet => false
               end).

(** time_sequencer.hpp:190-219 (dispatch): the due messages are taken out of the queue and
    collected in to_call under the lock, the callbacks are called afterwards; add
    (time_sequencer.hpp:146-160) calls none. *)
Definition seq_step_t {E} (stamp : E -> time) (queue_size : nat) (delay : Z)
  (th : oracle) (s : Seq_Model.state E) (o : Seq_Model.op E) : res (Seq_Model.state E * list E * bool) :=
  do '(s', to_call) <- Seq_Model.step stamp queue_size delay s o;
  let (outs, b) := signal_all th to_call in Ok (s', outs, b).

Section Aligner.
Import Aligner_Model.
Context {E : Type} (stamp : E -> Z) (timeout : Z).
(** input_aligner.hpp:391-414 (dispatchFirstMessage): last_out_ts_ is set before the callback is
    called, popFirst comes after it *)
Definition aligner_first_t (th : oracle) (s : state E) : res (state E * list (nat * E) * bool * bool) :=
  let qts := map (first_time_stamp stamp) (queues s) in
  let qs := map fst qts in
  let idx := first_sample_idx (map snd qts) in
  match nth_error qs idx with
  | None => Err UB
  | Some q =>
      match evs q with
      | e :: _ =>
          if th 0%nat then Ok (mkState qs (last_in s) (stamp e), [(idx, e)], false, true)
          else Ok (mkState (upd idx (pop_first q) qs) (last_in s) (stamp e), [(idx, e)], true, false)
      | [] =>
          if timeout <=? last_in s - snd (first_time_stamp stamp q) then
            Ok (mkState (upd idx (set_active false q) qs) (last_in s) (last_out s), [], true, false)
          else Ok (mkState qs (last_in s) (last_out s), [], false, false)
      end
  end.

(** input_aligner.hpp:236-238, the while loop *)
Fixpoint aligner_loop_t (fuel : nat) (th : oracle) (s : state E) : res (state E * list (nat * E) * bool) :=
  match fuel with
  | O => Err OutOfFuel
  | S fuel' =>
      do '(s1, o1, again, b1) <- aligner_first_t th s;
      if (b1 : bool) then Ok (s1, o1, true)
      else if (again : bool) then
        do '(s2, o2, b2) <- aligner_loop_t fuel' (later (length o1) th) s1;
        Ok (s2, o1 ++ o2, b2)
      else Ok (s1, o1, false)
  end.

(** input_aligner.hpp:226-240 (dispatchMessages), and the calls that call no callback *)
Definition aligner_step_t (th : oracle) (s : state E) (o : op E) : res (state E * list (nat * E) * bool) :=
  match o with
  | Add i e => do s' <- add stamp s i e; Ok (s', [], false)
  | SetPeriod i p => do s' <- set_period s i p; Ok (s', [], false)
  | Dispatch => if inputs_available s then aligner_loop_t (fuel_for s) th s else Ok (s, [], false)
  end.
End Aligner.

Section Exact.
Import Exact_Model.
Context {E : Type} (stamp : E -> Z) (n queue_size : nat).
(** exact_time.hpp:180-184 (drop_range) on the first elements [r] of the map: the callbacks are
    called for all of them, then they are erased *)
Definition drop_range_t (th : oracle) (r keep : list (Z * list (option E)))
  : list (Z * list (option E)) * list (out E) * bool :=
  let (o, b) := signal_all th (drops r) in (if b then r ++ keep else keep, o, b).

(** exact_time.hpp:156-160: the end of checkTuple *)
Definition trim_t (th : oracle) (s : state E) : state E * list (out E) * bool :=
  let sz := length (tuples s) in
  if (0 <? queue_size)%nat && (queue_size <? sz)%nat then
    let d := (sz - queue_size)%nat in
    let '(m, o, b) := drop_range_t th (firstn d (tuples s)) (skipn d (tuples s)) in
    (mkState m (last_signal_time s), o, b)
  else (s, [], false).

(** exact_time.hpp:139-161 (checkTuple) with clearOldTuples (165-169): the set is erased after
    the callback has returned *)
Definition checkTuple_t (th : oracle) (t : list (option E)) (s : state E) : state E * list (out E) * bool :=
  match full t with
  | Some (e0 :: rest) =>
      if th 0%nat then (s, [Signal (e0 :: rest)], true)
      else
        let last := stamp e0 in
        let (old, keep) := split_upper_bound last (erase last (tuples s)) in
        let '(m, o1, b1) := drop_range_t (later 1 th) old keep in
        let s1 := mkState m last in
        if b1 then (s1, Signal (e0 :: rest) :: o1, true)
        else
          let '(s2, o2, b2) := trim_t (later (1 + length o1) th) s1 in
          (s2, Signal (e0 :: rest) :: o1 ++ o2, b2)
  | _ => trim_t th s
  end.

(** exact_time.hpp:88-102 (add<i>) *)
Definition exact_add_t (th : oracle) (s : state E) (ie : nat * E) : res (state E * list (out E) * bool) :=
  let (i, e) := ie in
  let (m, t) := put n (stamp e) i e (tuples s) in
  Ok (checkTuple_t th t (mkState m (last_signal_time s))).
End Exact.

Section Eps.
Import Eps_Model.
Context {E : Type} (stamp : E -> Z) (n queue_size : nat) (epsilon : Z).
(** approximate_epsilon_time.hpp:269-280 (process): erase_beginning_of_vectors comes after the
    callback *)
Fixpoint eps_process_t (fuel : nat) (th : oracle) (s : state E) : res (state E * list (list E) * bool) :=
  if Nat.eqb (count s) n then
    match fuel with
    | O => Err OutOfFuel
    | S fuel' =>
        let old_ts := get_older_timestamp stamp s in
        if all_within_from stamp epsilon old_ts 0 (events s) then
          match fronts (events s) with
          | None => Err Thrown
          | Some set =>
              if th 0%nat then Ok (s, [set], true)
              else
                do '(s', o, b) <- eps_process_t fuel' (later 1 th) (erase_all erase_beginning s);
                Ok (s', set :: o, b)
          end
        else eps_process_t fuel' th (erase_all (erase_if_on_sync stamp epsilon (fst old_ts)) s)
    end
  else Ok (s, [], false).

(** approximate_epsilon_time.hpp:96-113 (add<i>) *)
Definition eps_add_t (th : oracle) (s : state E) (ie : nat * E) : res (state E * list (list E) * bool) :=
  let (i, e) := ie in
  match nth_error (events s) i with
  | None => Err UB
  | Some v =>
      let c := match v with [] => S (count s) | _ => count s end in
      let v' := v ++ [e] in
      let s1 := mkState c (upd i v' (events s)) in
      if Nat.eqb c n then eps_process_t (S (total s1)) th s1
      else if Nat.ltb queue_size (length v') then
        let (v2, d) := erase_beginning v' in
        Ok (mkState (c - d) (upd i v2 (events s1)), [], false)
      else Ok (s1, [], false)
  end.
End Eps.

Section Approx.
Import Approx_Model.
Context {E : Type} (stamp : E -> Z) (c : cfg).
(** approximate_time.hpp:385-397 (publishCandidate): candidate_, pivot_ and the queues are changed
    after the callback *)
Definition publish_t (th : oracle) (s : state E) : res (state E * list (list E) * bool) :=
  match candidate s with
  | None => Err UB
  | Some set =>
      if th 0%nat then Ok (s, [set], true)
      else do '(s', o) <- publish s; Ok (s', o, false)
  end.

(** approximate_time.hpp:580-615: the virtual search; an exception leaves the virtual moves done *)
Fixpoint virtual_search_t (fuel : nat) (th : oracle) (before : nat) (mv : list nat) (s : state E)
  : res (state E * list (list E) * bool) :=
  match fuel with
  | O => Err OutOfFuel
  | S fuel' =>
      do ts <- virtual_times stamp c s;
      let '(_, et) := boundary true ts in
      let '(si, st) := boundary false ts in
      if ptime s - cstart s <=? scale c (et - cend s) then publish_t th s
      else if scale c (et - cend s) <? st - cstart s then
        do s' <- recover_some mv s;
        if Nat.eqb before (num s') then Ok (s', [], false) else Err AssertFailed
      else if match pivot s with Some p => Nat.eqb si p | None => false end then Err AssertFailed
      else if negb (st <? ptime s) then Err AssertFailed
      else
        do s' <- move_front si s;
        virtual_search_t fuel' th before (upd si (S (nth si mv 0%nat)) mv) s'
  end.

(** approximate_time.hpp:563-616: the end of the loop body *)
Definition conclude_t (th : oracle) (si : nat) (et : Z) (s : state E) : res (state E * list (list E) * bool) :=
  match pivot s with
  | None => Err AssertFailed
  | Some p =>
      if Nat.eqb si p then publish_t th s
      else if ptime s - cstart s <=? scale c (et - cend s) then publish_t th s
      else if Nat.ltb (num s) (n c) then
        virtual_search_t (S (total (deques s))) th (num s) (repeat 0%nat (n c)) s
      else Ok (s, [], false)
  end.

(** approximate_time.hpp:512-616: one iteration of process() *)
Definition iteration_t (th : oracle) (s : state E) : res (state E * list (list E) * bool) :=
  match fronts (deques s) with
  | None => Err UB
  | Some hs =>
      let '(ei, et) := boundary true (map stamp hs) in
      let '(si, st) := boundary false (map stamp hs) in
      let s0 := clear_dropped ei s in
      match pivot s0 with
      | None =>
          if max_interval c <? et - st then
            do s1 <- delete_front si s0; Ok (s1, [], false)
          else if nth ei (dropped s0) false then
            do s1 <- delete_front si s0; Ok (s1, [], false)
          else
            do s1 <- make_candidate st et s0;
            do s2 <- move_front si (set_pivot ei et s1);
            conclude_t th si et s2
      | Some _ =>
          if st - cstart s0 <=? scale c (et - cend s0) then
            do s2 <- move_front si s0;
            conclude_t th si et s2
          else
            do s1 <- make_candidate st et s0;
            do s2 <- move_front si s1;
            conclude_t th si et s2
      end
  end.

(** approximate_time.hpp:508-618 (process) *)
Fixpoint approx_process_t (fuel : nat) (th : oracle) (s : state E) : res (state E * list (list E) * bool) :=
  if Nat.eqb (num s) (n c) then
    match fuel with
    | O => Err OutOfFuel
    | S fuel' =>
        do '(s1, o1, b1) <- iteration_t th s;
        if (b1 : bool) then Ok (s1, o1, true)
        else
          do '(s2, o2, b2) <- approx_process_t fuel' (later (length o1) th) s1;
          Ok (s2, o1 ++ o2, b2)
    end
  else Ok (s, [], false).

(** approximate_time.hpp:168-181: the first half of add<i> *)
Definition approx_add_process_t (th : oracle) (s : state E) (i : nat) (e : E) : res (state E * list (list E) * bool) :=
  match nth_error (deques s) i with
  | None => Err UB
  | Some q =>
      let s1 := set_queues (upd i (q ++ [e]) (deques s))
                           (if is_nil q then S (num s) else num s) (past s) s in
      if is_nil q then
        if Nat.eqb (num s1) (n c) then approx_process_t (fuel_for s1) th s1 else Ok (s1, [], false)
      else Ok (check_inter_message_bound stamp c i s1, [], false)
  end.

(** approximate_time.hpp:182-200: the second half of add<i> *)
Definition approx_add_overflow_t (th : oracle) (s : state E) (i : nat) : res (state E * list (list E) * bool) :=
  if Nat.ltb (queue_size c) (length (nth i (deques s) []) + length (nth i (past s) [])) then
    let s1 := recover_all s in
    match nth i (deques s1) [] with
    | [] => Err AssertFailed
    | _ :: q =>
        let s2 := mkState (upd i q (deques s1)) (num s1) (past s1) (candidate s1) (cstart s1)
                          (cend s1) (pivot s1) (ptime s1) (upd i true (dropped s1)) (warned s1) in
        match pivot s2 with
        | None => Ok (s2, [], false)
        | Some _ =>
            let s3 := mkState (deques s2) (num s2) (past s2) None (cstart s2) (cend s2) None
                              (ptime s2) (dropped s2) (warned s2) in
            approx_process_t (fuel_for s3) th s3
        end
    end
  else Ok (s, [], false).

(** approximate_time.hpp:165-201 (add<i>): an exception from the first half skips the second *)
Definition approx_add_t (th : oracle) (s : state E) (ie : nat * E) : res (state E * list (list E) * bool) :=
  do '(s1, o1, b1) <- approx_add_process_t th s (fst ie) (snd ie);
  if (b1 : bool) then Ok (s1, o1, true)
  else
    do '(s2, o2, b2) <- approx_add_overflow_t (later (length o1) th) s1 (fst ie);
    Ok (s2, o1 ++ o2, b2).
End Approx.
