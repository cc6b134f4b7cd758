(** ApproximateTime (include/message_filters/sync_policies/approximate_time.hpp) whose output
    callbacks call its setters.  The setters (203-225) take no mutex, so a callback may call them
    while the policy signals a set; calling add<i> (165-201) there locks data_mutex_, which the
    caller holds, once more ([Err Deadlock]).

    publishCandidate (385-397) signals first and then clears the candidate and the pivot and
    recovers the queues.  None of this reads a parameter, and it is the last thing an iteration of
    process() (508-618) does, so what the callback sets is first read by the next iteration.

    Simplifications: all callbacks registered with the output are one function from the sets
    signalled so far, the current one last, to the calls made; they only make calls of this policy.
    The parameters are those of ApproxSet_Model.v. *)
From Coq Require Import List Arith ZArith Bool.
From Verif Require Import Base Approx_Model ApproxSet_Model.
Import ListNotations.
Local Open Scope Z_scope.

Section SetBack.
Context {E : Type} (stamp : E -> Z).
Variable cb : list (list E) -> list (op E).

(** One call from a callback: 165-168 (add<i>), 203-225 (the setters) *)
Definition call (c : cfg) (o : op E) : res cfg :=
  match o with
  | Add _ _ => Err Deadlock
  | SetAgePenalty p => set_age_penalty p c
  | SetLowerBound i b => set_lower_bound i b c
  | SetMaxInterval d => set_max_interval d c
  end.

Fixpoint calls (c : cfg) (os : list (op E)) : res cfg :=
  match os with
  | [] => Ok c
  | o :: os' => do c' <- call c o; calls c' os'
  end.

(** 388-389: the signal of publishCandidate, if the iteration published [o]; [seen] are the sets
    signalled before *)
Definition signal_cb (c : cfg) (seen o : list (list E)) : res cfg :=
  match o with
  | [] => Ok c
  | _ => calls c (cb (seen ++ o))
  end.

(** 508-618 (process) *)
Fixpoint process_cb (fuel : nat) (c : cfg) (s : state E) (seen : list (list E))
  : res (cfg * state E * list (list E)) :=
  if Nat.eqb (num s) (n c) then
    match fuel with
    | O => Err OutOfFuel
    | S fuel' =>
        do '(s1, o1) <- iteration stamp c s;
        do c1 <- signal_cb c seen o1;
        do '(c2, s2, o2) <- process_cb fuel' c1 s1 (seen ++ o1);
        Ok (c2, s2, o1 ++ o2)
    end
  else Ok (c, s, []).

(** 168-181: the first half of add<i> *)
Definition add_process_cb (c : cfg) (s : state E) (seen : list (list E)) (i : nat) (e : E)
  : res (cfg * state E * list (list E)) :=
  match nth_error (deques s) i with
  | None => Err UB
  | Some q =>
      let s1 := set_queues (upd i (q ++ [e]) (deques s))
                           (if is_nil q then S (num s) else num s) (past s) s in
      if is_nil q then
        if Nat.eqb (num s1) (n c) then process_cb (fuel_for s1) c s1 seen else Ok (c, s1, [])
      else Ok (c, check_inter_message_bound stamp c i s1, [])
  end.

(** 182-200: the second half of add<i> *)
Definition add_overflow_cb (c : cfg) (s : state E) (seen : list (list E)) (i : nat)
  : res (cfg * state E * list (list E)) :=
  if Nat.ltb (queue_size c) (length (nth i (deques s) []) + length (nth i (past s) [])) then
    let s1 := recover_all s in
    match nth i (deques s1) [] with
    | [] => Err AssertFailed
    | _ :: q =>
        let s2 := mkState (upd i q (deques s1)) (num s1) (past s1) (candidate s1) (cstart s1)
                          (cend s1) (pivot s1) (ptime s1) (upd i true (dropped s1)) (warned s1) in
        match pivot s2 with
        | None => Ok (c, s2, [])
        | Some _ =>
            let s3 := mkState (deques s2) (num s2) (past s2) None (cstart s2) (cend s2) None
                              (ptime s2) (dropped s2) (warned s2) in
            process_cb (fuel_for s3) c s3 seen
        end
    end
  else Ok (c, s, []).

(** 165-201 (add<i>) *)
Definition add_cb (c : cfg) (s : state E) (seen : list (list E)) (ie : nat * E)
  : res (cfg * state E * list (list E)) :=
  do '(c1, s1, o1) <- add_process_cb c s seen (fst ie) (snd ie);
  do '(c2, s2, o2) <- add_overflow_cb c1 s1 (seen ++ o1) (fst ie);
  Ok (c2, s2, o1 ++ o2).

(** A sequence of additions: the parameters and the state after it and the sets signalled *)
Fixpoint run_cb (c : cfg) (s : state E) (seen : list (list E)) (h : list (nat * E))
  : res (cfg * state E * list (list E)) :=
  match h with
  | [] => Ok (c, s, [])
  | x :: h' =>
      do '(c1, s1, o1) <- add_cb c s seen x;
      do '(c2, s2, o2) <- run_cb c1 s1 (seen ++ o1) h';
      Ok (c2, s2, o1 ++ o2)
  end.
End SetBack.
