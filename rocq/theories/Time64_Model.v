(** The filters with the 64-bit arithmetic of rclcpp::Time and rclcpp::Duration.  rclcpp is
    outside /repo (trusted base): Time + Duration and Time - Time throw if the result is no
    64-bit integer, Duration::operator* throws if the product might not be one.  The models
    Eps_Model, Approx_Model, Aligner_Model and Seq_Model compute with unbounded integers;
    here the same functions use the checked operations.  Functions that do no arithmetic are
    taken from there.

    Simplification: what a call that throws leaves behind is not modelled here. *)
From Coq Require Import List Arith ZArith Bool.
From Verif Require Import Base RclTime ApproxScale_Model.
From Verif Require Eps_Model Approx_Model Aligner_Model Seq_Model.
Import ListNotations.
Local Open Scope Z_scope.

(** The values of int64_t, decided *)
Definition is_int64 (z : Z) : bool := (int64_min <=? z) && (z <=? int64_max).
(** rclcpp::Time::operator+(const rclcpp::Duration &) *)
Definition plus64 (a b : Z) : res Z := if is_int64 (a + b) then Ok (a + b) else Err Thrown.
(** rclcpp::Time::operator-(const rclcpp::Time &) *)
Definition minus64 (a b : Z) : res Z := if is_int64 (a - b) then Ok (a - b) else Err Thrown.
(** rclcpp::Duration::operator*(double): throws if the absolute value of the duration exceeds
    the largest duration divided by the factor num/den > 1 in long double ([p] significant
    bits), truncated *)
Definition times64 (p num den d : Z) : res Z :=
  if (den <? num) && (long_double_trunc p (int64_max * den) num <? Z.abs d) then Err Thrown
  else Ok (scale_long_double p num den d).

(* ------------------------------------------------------------------ *)
(** ApproximateEpsilonTime *)
Module Eps64.
Import Eps_Model.
Section Eps.
Context {E : Type} (stamp : E -> Z).
Variable n : nat.
Variable queue_size : nat.
Variable epsilon : Z.
Notation state := (state E).

(** approximate_epsilon_time.hpp:155-176 (check_timestamp_within_epsilon<Is>) *)
Definition within (older : Z * option nat) (is : nat) (v : list E) : res bool :=
  if match snd older with Some j => Nat.eqb is j | None => false end then Ok true
  else match v with
       | [] => Ok false
       | e :: _ => do t <- plus64 (fst older) epsilon; Ok (stamp e <=? t)
       end.

(** approximate_epsilon_time.hpp:178-193 (check_all_timestamp_within_epsilon): all are checked *)
Fixpoint all_within_from (older : Z * option nat) (is : nat) (vs : list (list E)) : res bool :=
  match vs with
  | [] => Ok true
  | v :: vs' =>
      do b <- within older is v;
      do b' <- all_within_from older (S is) vs';
      Ok (b && b')
  end.

(** approximate_epsilon_time.hpp:220-239 (erase_beginning_of_vector_if_on_sync_with_ts) *)
Definition erase_if_on_sync (ts : Z) (v : list E) : res (list E * nat) :=
  match v with
  | [] => Ok ([], 0%nat)
  | e :: _ => do t <- plus64 ts epsilon; Ok (if t <? stamp e then (v, 0%nat) else erase_beginning v)
  end.

(** approximate_epsilon_time.hpp:241-255 (erase_old_events_if_on_sync_with_ts) *)
Fixpoint erase_from (ts : Z) (vs : list (list E)) : res (list (list E) * nat) :=
  match vs with
  | [] => Ok ([], 0%nat)
  | v :: vs' =>
      do '(v', d) <- erase_if_on_sync ts v;
      do '(vs'', d') <- erase_from ts vs';
      Ok (v' :: vs'', (d + d')%nat)
  end.
(** approximate_epsilon_time.hpp:241-255, with the decrements of number_of_non_empty_events_ *)
Definition erase_on_sync (ts : Z) (s : state) : res state :=
  do '(vs, d) <- erase_from ts (events s); Ok (mkState (count s - d) vs).

(** approximate_epsilon_time.hpp:269-280 (process) *)
Fixpoint process (fuel : nat) (s : state) (outs : list (list E)) : res (state * list (list E)) :=
  if Nat.eqb (count s) n then
    match fuel with
    | O => Err OutOfFuel
    | S fuel' =>
        let old_ts := get_older_timestamp stamp s in
        do b <- all_within_from old_ts 0 (events s);
        if (b : bool) then
          match fronts (events s) with
          | None => Err Thrown
          | Some set => process fuel' (erase_all erase_beginning s) (outs ++ [set])
          end
        else do s' <- erase_on_sync (fst old_ts) s; process fuel' s' outs
    end
  else Ok (s, outs).

(** approximate_epsilon_time.hpp:96-113 (add<i>) *)
Definition add (s : state) (ie : nat * E) : res (state * list (list E)) :=
  let (i, e) := ie in
  match nth_error (events s) i with
  | None => Err UB
  | Some v =>
      let c := match v with [] => S (count s) | _ => count s end in
      let v' := v ++ [e] in
      let s1 := mkState c (upd i v' (events s)) in
      if Nat.eqb c n then process (S (total s1)) s1 []
      else if Nat.ltb queue_size (length v') then
        let (v2, d) := erase_beginning v' in
        Ok (mkState (c - d) (upd i v2 (events s1)), [])
      else Ok (s1, [])
  end.

(** A sequence of additions *)
Fixpoint run (s : state) (h : list (nat * E)) : res (state * list (list E)) :=
  match h with
  | [] => Ok (s, [])
  | x :: h' =>
      do '(s1, o1) <- add s x;
      do '(s2, o2) <- run s1 h';
      Ok (s2, o1 ++ o2)
  end.
End Eps.
End Eps64.

(* ------------------------------------------------------------------ *)
(** ApproximateTime *)
Module Approx64.
Import Approx_Model.
Section Approx.
Context {E : Type} (stamp : E -> Z).
Variable c : cfg.
Variable times : Z -> res Z.    (* a duration times (1 + age_penalty_); [scale c] is not used *)
Notation state := (state E).

(** approximate_time.hpp:117-162 (checkInterMessageBound<i>); the difference is computed (152)
    unless the messages are out of order *)
Definition bound_violated (i : nat) (v q : list E) : res bool :=
  match rev q with
  | [] => Ok false
  | m :: prevs =>
      match (match prevs with
             | [] => match rev v with [] => None | p :: _ => Some (stamp p) end
             | p :: _ => Some (stamp p)
             end) with
      | None => Ok false
      | Some prev =>
          if stamp m <? prev then Ok true else do d <- minus64 (stamp m) prev; Ok (d <? bound c i)
      end
  end.
(** approximate_time.hpp:117-162 (checkInterMessageBound<i>) *)
Definition check_inter_message_bound (i : nat) (s : state) : res state :=
  if nth i (warned s) false then Ok s
  else
    do b <- bound_violated i (nth i (past s) []) (nth i (deques s) []);
    if (b : bool) then
      Ok (mkState (deques s) (num s) (past s) (candidate s) (cstart s) (cend s) (pivot s)
                  (ptime s) (dropped s) (upd i true (warned s)))
    else Ok s.

(** approximate_time.hpp:443-468 (getVirtualTime<i>): the sum at 458 *)
Definition virtual_time (s : state) (i : nat) (v q : list E) : res Z :=
  match pivot s with
  | None => Err AssertFailed
  | Some _ =>
      match q with
      | x :: _ => Ok (stamp x)
      | [] =>
          match rev v with
          | [] => Err AssertFailed
          | l :: _ =>
              do t <- plus64 (stamp l) (bound c i);
              Ok (if ptime s <? t then t else ptime s)
          end
      end
  end.
(** approximate_time.hpp:483-487 (getVirtualTimes) *)
Fixpoint virtual_times_from (s : state) (i : nat) (vs qs : list (list E)) : res (list Z) :=
  match vs, qs with
  | v :: vs', q :: qs' =>
      do t <- virtual_time s i v q;
      do ts <- virtual_times_from s (S i) vs' qs';
      Ok (t :: ts)
  | _, _ => Ok []
  end.
(** approximate_time.hpp:483-487 (getVirtualTimes) *)
Definition virtual_times (s : state) : res (list Z) :=
  virtual_times_from s 0 (past s) (deques s).

(** approximate_time.hpp:549, 565, 586, 595: (end_time - candidate_end_) * (1 + age_penalty_) *)
Definition age (et : Z) (s : state) : res Z := do d <- minus64 et (cend s); times d.

(** approximate_time.hpp:580-615: the while(1) of the virtual search *)
Fixpoint virtual_search (fuel : nat) (before : nat) (mv : list nat) (s : state)
  : res (state * list (list E)) :=
  match fuel with
  | O => Err OutOfFuel
  | S fuel' =>
      do ts <- virtual_times s;
      let '(_, et) := boundary true ts in
      let '(si, st) := boundary false ts in
      do a <- age et s;
      do dp <- minus64 (ptime s) (cstart s);
      if dp <=? a then publish s
      else
        do ds <- minus64 st (cstart s);
        if a <? ds then
          do s' <- recover_some mv s;
          if Nat.eqb before (num s') then Ok (s', []) else Err AssertFailed
        else if match pivot s with Some p => Nat.eqb si p | None => false end then Err AssertFailed
        else if negb (st <? ptime s) then Err AssertFailed
        else
          do s' <- move_front si s;
          virtual_search fuel' before (upd si (S (nth si mv 0%nat)) mv) s'
  end.

(** approximate_time.hpp:563-616: the rest of the loop body of process(); age_check (565) is
    computed first *)
Definition conclude (si : nat) (et : Z) (s : state) : res (state * list (list E)) :=
  match pivot s with
  | None => Err AssertFailed
  | Some p =>
      do a <- age et s;
      if Nat.eqb si p then publish s
      else
        do dp <- minus64 (ptime s) (cstart s);
        if dp <=? a then publish s
        else if Nat.ltb (num s) (n c) then
          virtual_search (S (total (deques s))) (num s) (repeat 0%nat (n c)) s
        else Ok (s, [])
  end.

(** approximate_time.hpp:512-616: one iteration of the while loop of process() *)
Definition iteration (s : state) : res (state * list (list E)) :=
  match fronts (deques s) with
  | None => Err UB
  | Some hs =>
      let '(ei, et) := boundary true (map stamp hs) in
      let '(si, st) := boundary false (map stamp hs) in
      let s0 := clear_dropped ei s in
      match pivot s0 with
      | None =>
          do d <- minus64 et st;
          if max_interval c <? d then
            do s1 <- delete_front si s0; Ok (s1, [])
          else if nth ei (dropped s0) false then
            do s1 <- delete_front si s0; Ok (s1, [])
          else
            do s1 <- make_candidate st et s0;
            do s2 <- move_front si (set_pivot ei et s1);
            conclude si et s2
      | Some _ =>
          do a <- age et s0;
          do ds <- minus64 st (cstart s0);
          if ds <=? a then
            do s2 <- move_front si s0;
            conclude si et s2
          else
            do s1 <- make_candidate st et s0;
            do s2 <- move_front si s1;
            conclude si et s2
      end
  end.

(** approximate_time.hpp:508-618 (process) *)
Fixpoint process (fuel : nat) (s : state) : res (state * list (list E)) :=
  if Nat.eqb (num s) (n c) then
    match fuel with
    | O => Err OutOfFuel
    | S fuel' =>
        do '(s1, o1) <- iteration s;
        do '(s2, o2) <- process fuel' s1;
        Ok (s2, o1 ++ o2)
    end
  else Ok (s, []).

(** approximate_time.hpp:168-181: the first half of add<i> *)
Definition add_process (s : state) (i : nat) (e : E) : res (state * list (list E)) :=
  match nth_error (deques s) i with
  | None => Err UB
  | Some q =>
      let s1 := set_queues (upd i (q ++ [e]) (deques s))
                           (if is_nil q then S (num s) else num s) (past s) s in
      if is_nil q then
        if Nat.eqb (num s1) (n c) then process (fuel_for s1) s1 else Ok (s1, [])
      else do s2 <- check_inter_message_bound i s1; Ok (s2, [])
  end.

(** approximate_time.hpp:182-200: the second half of add<i> *)
Definition add_overflow (s : state) (i : nat) : res (state * list (list E)) :=
  if Nat.ltb (queue_size c) (length (nth i (deques s) []) + length (nth i (past s) [])) then
    let s1 := recover_all s in
    match nth i (deques s1) [] with
    | [] => Err AssertFailed
    | _ :: q =>
        let s2 := mkState (upd i q (deques s1)) (num s1) (past s1) (candidate s1) (cstart s1)
                          (cend s1) (pivot s1) (ptime s1) (upd i true (dropped s1)) (warned s1) in
        match pivot s2 with
        | None => Ok (s2, [])
        | Some _ =>
            let s3 := mkState (deques s2) (num s2) (past s2) None (cstart s2) (cend s2) None
                              (ptime s2) (dropped s2) (warned s2) in
            process (fuel_for s3) s3
        end
    end
  else Ok (s, []).

(** approximate_time.hpp:165-201 (add<i>) *)
Definition add (s : state) (ie : nat * E) : res (state * list (list E)) :=
  do '(s1, o1) <- add_process s (fst ie) (snd ie);
  do '(s2, o2) <- add_overflow s1 (fst ie);
  Ok (s2, o1 ++ o2).

(** A sequence of additions *)
Fixpoint run (s : state) (h : list (nat * E)) : res (state * list (list E)) :=
  match h with
  | [] => Ok (s, [])
  | x :: h' =>
      do '(s1, o1) <- add s x;
      do '(s2, o2) <- run s1 h';
      Ok (s2, o1 ++ o2)
  end.
End Approx.
End Approx64.

(* ------------------------------------------------------------------ *)
(** InputAligner *)
Module Aligner64.
Import Aligner_Model.
Section Aligner.
Context {E : Type} (stamp : E -> Z).
Variable timeout : Z.
Notation state := (state E).
Notation queue := (queue E).

(** input_aligner.hpp:264-277 (firstTimeStamp): the sum at 270 *)
Definition first_time_stamp (q : queue) : res (queue * Z) :=
  match evs q with
  | e :: _ =>
      do t <- plus64 (stamp e) (period q);
      Ok (mkQueue (evs q) t (period q) true (processed q) (dropped q), stamp e)
  | [] => if active q then Ok (q, next_ts q) else Ok (q, int64_max)
  end.

(** input_aligner.hpp:375-388: firstTimeStamp of all queues *)
Fixpoint first_time_stamps (qs : list queue) : res (list (queue * Z)) :=
  match qs with
  | [] => Ok []
  | q :: qs' =>
      do x <- first_time_stamp q;
      do xs <- first_time_stamps qs';
      Ok (x :: xs)
  end.

(** input_aligner.hpp:375-414 (dispatchFirstMessage, both overloads): the difference at 406 *)
Definition dispatch_first (s : state) : res (state * list (nat * E) * bool) :=
  do qts <- first_time_stamps (queues s);
  let qs := map fst qts in
  let idx := first_sample_idx (map snd qts) in
  match nth_error qs idx with
  | None => Err UB
  | Some q =>
      match evs q with
      | e :: _ => Ok (mkState (upd idx (pop_first q) qs) (last_in s) (stamp e), [(idx, e)], true)
      | [] =>
          do '(_, ts) <- first_time_stamp q;
          do d <- minus64 (last_in s) ts;
          if timeout <=? d then
            Ok (mkState (upd idx (set_active false q) qs) (last_in s) (last_out s), [], true)
          else Ok (mkState qs (last_in s) (last_out s), [], false)
      end
  end.

(** input_aligner.hpp:236-238, the while loop *)
Fixpoint dispatch_loop (fuel : nat) (s : state) : res (state * list (nat * E)) :=
  match fuel with
  | O => Err OutOfFuel
  | S fuel' =>
      do '(s1, o1, again) <- dispatch_first s;
      if (again : bool) then
        do '(s2, o2) <- dispatch_loop fuel' s1;
        Ok (s2, o1 ++ o2)
      else Ok (s1, o1)
  end.

(** input_aligner.hpp:226-240 (dispatchMessages) *)
Definition dispatch (s : state) : res (state * list (nat * E)) :=
  if inputs_available s then dispatch_loop (fuel_for s) s else Ok (s, []).

(** One call *)
Definition step (s : state) (o : op E) : res (state * list (nat * E)) :=
  match o with
  | Add i e => do s' <- add stamp s i e; Ok (s', [])
  | SetPeriod i p => do s' <- set_period s i p; Ok (s', [])
  | Dispatch => dispatch s
  end.

(** A sequence of calls *)
Fixpoint run (s : state) (h : list (op E)) : res (state * list (nat * E)) :=
  match h with
  | [] => Ok (s, [])
  | o :: h' =>
      do '(s1, o1) <- step s o;
      do '(s2, o2) <- run s1 h';
      Ok (s2, o1 ++ o2)
  end.
End Aligner.
End Aligner64.

(* ------------------------------------------------------------------ *)
(** TimeSequencer *)
Module Seq64.
Import Seq_Model.
Section Seq.
Context {E : Type} (stamp : E -> time).
Variable queue_size : nat.
Variable delay : Z.
Notation state := (state E).

(** time_sequencer.hpp:190-219 (dispatch): the sum at 202 *)
Fixpoint dispatch (nows : nat -> Z) (ms : list E) (last : time) : res (state * list E) :=
  match ms with
  | [] => Ok (mkState [] last, [])
  | e :: t =>
      do d <- plus64 (ns (stamp e)) delay;
      do due <- time_le (mkTime d (clk (stamp e))) (mkTime (nows 0%nat) SystemClock);
      if due then
        do '(s', outs) <- dispatch (fun k => nows (S k)) t (stamp e);
        Ok (s', e :: outs)
      else Ok (mkState ms last, [])
  end.

(** One call *)
Definition step (s : state) (o : op E) : res (state * list E) :=
  match o with
  | Add e => do s' <- add stamp queue_size s e; Ok (s', [])
  | Tick nows => dispatch nows (messages s) (last_time s)
  end.

(** A sequence of calls *)
Fixpoint run (s : state) (h : list (op E)) : res (state * list E) :=
  match h with
  | [] => Ok (s, [])
  | o :: h' =>
      do '(s1, o1) <- step s o;
      do '(s2, o2) <- run s1 h';
      Ok (s2, o1 ++ o2)
  end.
End Seq.
End Seq64.
