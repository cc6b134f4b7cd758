(** InputAligner (include/message_filters/input_aligner.hpp) whose output callbacks use the
    aligner that calls them.  dispatchMessages (226-240) holds mutex_ while it calls the
    callbacks.  setInputPeriod (196-200) and getQueueStatus (202-206) take no mutex, so a callback
    may call them; an addition (339-364) or dispatchMessages from a callback locks mutex_ once
    more ([Err Deadlock]).

    Simplifications: those of Aligner_Model.v; all callbacks of all outputs are one function from
    the messages forwarded so far, the current one last, and from what getQueueStatus tells about
    each input at that moment, to the calls made.  They only make calls of this aligner. *)
From Coq Require Import List Arith ZArith Bool.
From Verif Require Import Base RclTime Aligner_Model.
Import ListNotations.
Local Open Scope Z_scope.

Section AlignBack.
Context {E : Type} (stamp : E -> Z).
Variable timeout : Z.
Variable cb : list (nat * E) -> list status -> list (op E).

(** What happens, in order: a call from outside the callbacks, a message forwarded on an output
    with what getQueueStatus then tells about the inputs, a call from its callback *)
Inductive item := Main (o : op E) | Forward (i : nat) (e : E) (st : list status) | Inside (o : op E).

(** The messages forwarded, with their outputs *)
Definition outs (tr : list item) : list (nat * E) :=
  flat_map (fun x => match x with Forward i e _ => [(i, e)] | _ => [] end) tr.

(** One call from a callback: 196-200 (setInputPeriod); 347 and 230 (lock of addEvent and
    dispatchMessages) *)
Definition call (s : state E) (o : op E) : res (state E) :=
  match o with
  | SetPeriod i p => set_period s i p
  | Add _ _ | Dispatch => Err Deadlock
  end.

(** The calls of one callback, one after the other *)
Fixpoint calls (s : state E) (os : list (op E)) : res (state E) :=
  match os with
  | [] => Ok s
  | o :: os' => do s' <- call s o; calls s' os'
  end.

(** 375-414 (dispatchFirstMessage, both overloads): last_out_ts_ is set, the callbacks are called
    while the message is still in its queue, and only then it is removed and counted *)
Definition dispatch_first_cb (s : state E) (tr : list item) : res (state E * list item * bool) :=
  let qts := map (first_time_stamp stamp) (queues s) in
  let qs := map fst qts in
  let idx := first_sample_idx (map snd qts) in
  match nth_error qs idx with
  | None => Err UB
  | Some q =>
      match evs q with
      | e :: _ =>
          let st := map get_status qs in
          let os := cb (outs tr ++ [(idx, e)]) st in
          do s1 <- calls (mkState qs (last_in s) (stamp e)) os;
          match nth_error (queues s1) idx with
          | None => Err UB
          | Some q1 =>
              Ok (mkState (upd idx (pop_first q1) (queues s1)) (last_in s1) (last_out s1),
                  Forward idx e st :: map Inside os, true)
          end
      | [] =>
          if timeout <=? last_in s - snd (first_time_stamp stamp q) then
            Ok (mkState (upd idx (set_active false q) qs) (last_in s) (last_out s), [], true)
          else Ok (mkState qs (last_in s) (last_out s), [], false)
      end
  end.

(** 236-238, the while loop *)
Fixpoint dispatch_loop_cb (fuel : nat) (s : state E) (tr : list item) : res (state E * list item) :=
  match fuel with
  | O => Err OutOfFuel
  | S fuel' =>
      do '(s1, t1, again) <- dispatch_first_cb s tr;
      if (again : bool) then
        do '(s2, t2) <- dispatch_loop_cb fuel' s1 (tr ++ t1);
        Ok (s2, t1 ++ t2)
      else Ok (s1, t1)
  end.

(** 226-240 (dispatchMessages) *)
Definition dispatch_cb (s : state E) (tr : list item) : res (state E * list item) :=
  if inputs_available s then dispatch_loop_cb (fuel_for s) s tr else Ok (s, []).

(** One call from outside: what happens because of it *)
Definition step_cb (s : state E) (tr : list item) (o : op E) : res (state E * list item) :=
  match o with
  | Add i e => do s' <- add stamp s i e; Ok (s', [Main o])
  | SetPeriod i p => do s' <- set_period s i p; Ok (s', [Main o])
  | Dispatch => do '(s', t) <- dispatch_cb s (tr ++ [Main o]); Ok (s', Main o :: t)
  end.

(** A sequence of calls from outside; [tr] is what happened before *)
Fixpoint run_cb (s : state E) (tr : list item) (h : list (op E)) : res (state E * list item) :=
  match h with
  | [] => Ok (s, [])
  | o :: h' =>
      do '(s1, t1) <- step_cb s tr o;
      do '(s2, t2) <- run_cb s1 (tr ++ t1) h';
      Ok (s2, t1 ++ t2)
  end.
End AlignBack.
Arguments item : clear implicits.
