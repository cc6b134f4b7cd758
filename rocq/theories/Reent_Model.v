(** Callbacks that use the filter that calls them: one thread, one filter.

    [body] is what a method does as described in the model of the filter: the new state, its result and the
    messages it signals, in order.  [takes o]: method [o] locks the filter's own mutex.  [held]: that mutex
    is held while the filter signals.  The signal's mutex is held while callbacks run (signal1.hpp:104-114,
    signal9.hpp:139-149).  A thread that locks a mutex it holds blocks for ever ([Err Deadlock]; std::mutex
    is not recursive).  If [held] is false the signals come after the critical section; if it is true, no
    callback can do anything to the state that takes the mutex, so it does not matter that the model signals
    at the end.  Methods that take no mutex (the setters) are not called by callbacks here.  The callbacks
    registered with the filter are one program. *)
From Coq Require Import List Arith ZArith Bool.
From Verif Require Import Base RclTime.
From Verif Require Cache_Model Seq_Model Aligner_Model Exact_Model Eps_Model Approx_Model Latest_Model.
Import ListNotations.

(** What a callback does: return, or call a method of the filter and go on depending on the result;
    [Wire]: registerCallback or Connection::disconnect (signal1.hpp:84-102, signal9.hpp:91-99, 129-137) *)
Inductive prog (Op Res : Type) := Ret | Call (o : Op) (k : Res -> prog Op Res) | Wire (k : prog Op Res).
Arguments Ret {Op Res}.
Arguments Call {Op Res}.
Arguments Wire {Op Res}.

Section Reent.
Context {St Op Res Msg : Type}.
Variable body : St -> Op -> res (St * Res * list Msg).
Variable takes : Op -> bool.
Variable held : bool.
(** a call that was made: the method, its result, the messages it signals *)
Definition entry : Type := Op * Res * list Msg.
(** the callback, depending on the calls made so far and the message *)
Variable callback : list entry -> Msg -> prog Op Res.

(** A callback running: both mutexes are locked as described *)
Fixpoint inside (s : St) (tr : list entry) (p : prog Op Res) : res (St * list entry) :=
  match p with
  | Ret => Ok (s, tr)
  | Wire _ => Err Deadlock
  | Call o k =>
      if takes o && held then Err Deadlock
      else do '(s', r, ms) <- body s o;
           match ms with [] => inside s' (tr ++ [(o, r, [])]) (k r) | _ => Err Deadlock end
  end.
(** The messages signalled one after the other *)
Fixpoint signal (s : St) (tr : list entry) (ms : list Msg) : res (St * list entry) :=
  match ms with
  | [] => Ok (s, tr)
  | m :: ms' => do '(s', tr') <- inside s tr (callback tr m); signal s' tr' ms'
  end.
(** A sequence of calls of the user; [tr]: the calls made so far, those of callbacks included *)
Fixpoint run_re (s : St) (tr : list entry) (h : list Op) : res (St * list entry) :=
  match h with
  | [] => Ok (s, tr)
  | o :: h' =>
      do '(s1, r, ms) <- body s o;
      do '(s2, tr2) <- signal s1 (tr ++ [(o, r, ms)]) ms;
      run_re s2 tr2 h'
  end.
End Reent.

(** ** The filters *)
(** cache.hpp:125-159: the mutex is released (156) before the message is signalled (158).  Queries: 169-332.
    [SetSize] takes no mutex (102-110). *)
Definition cache_body {E} (stamp : E -> time) (s : Cache_Model.state E) (o : Cache_Model.op E)
  : res (Cache_Model.state E * Cache_Model.out E * list E) :=
  let (s', x) := Cache_Model.step stamp s o in
  match x with Cache_Model.Failed e => Err e | Cache_Model.Forwarded e => Ok (s', x, [e]) | _ => Ok (s', x, []) end.
(** cache.hpp:102-110: setCacheSize has no lock *)
Definition cache_takes {E} (o : Cache_Model.op E) : bool := match o with Cache_Model.SetSize _ => false | _ => true end.
(** time_sequencer.hpp:146-160 (add), 190-219 (dispatch: the mutex is released before the messages are
    signalled) *)
Definition seq_body {E} (stamp : E -> time) (q : nat) (delay : Z) (s : Seq_Model.state E) (o : Seq_Model.op E)
  : res (Seq_Model.state E * unit * list E) :=
  do '(s', ms) <- Seq_Model.step stamp q delay s o; Ok (s', tt, ms).
(** input_aligner.hpp:226-240 (dispatchMessages), 339-364 (addEvent): mutex_ is held during both.
    setInputPeriod has no lock (196-200). *)
Definition aligner_body {E} (stamp : E -> Z) (timeout : Z) (s : Aligner_Model.state E) (o : Aligner_Model.op E)
  : res (Aligner_Model.state E * unit * list (nat * E)) :=
  do '(s', ms) <- Aligner_Model.step stamp timeout s o; Ok (s', tt, ms).
(** input_aligner.hpp:196-200: setInputPeriod has no lock *)
Definition aligner_takes {E} (o : Aligner_Model.op E) : bool := match o with Aligner_Model.SetPeriod _ _ => false | _ => true end.
(** exact_time.hpp:87-102: mutex_ is held during all of add *)
Definition exact_body {E} (stamp : E -> Z) (n q : nat) (s : Exact_Model.state E) (ie : nat * E)
  : res (Exact_Model.state E * unit * list (Exact_Model.out E)) :=
  let (s', ms) := Exact_Model.add stamp n q s ie in Ok (s', tt, ms).
(** approximate_epsilon_time.hpp:96-113: mutex_ is held during all of add *)
Definition eps_body {E} (stamp : E -> Z) (n q : nat) (eps : Z) (s : Eps_Model.state E) (ie : nat * E)
  : res (Eps_Model.state E * unit * list (list E)) :=
  do '(s', ms) <- Eps_Model.add stamp n q eps s ie; Ok (s', tt, ms).
(** approximate_time.hpp:165-201: data_mutex_ is held during all of add *)
Definition approx_body {E} (stamp : E -> Z) c (s : Approx_Model.state E) (ie : nat * E)
  : res (Approx_Model.state E * unit * list (list E)) :=
  do '(s', ms) <- Approx_Model.add stamp c s ie; Ok (s', tt, ms).
(** latest_time.hpp:144-168: data_mutex_ is held during all of add; setRateConfig (128-136) has no lock *)
Definition latest_body {E D} (f : Latest_Model.fops D) n c (s : Latest_Model.state E D) (o : Latest_Model.op E D)
  : res (Latest_Model.state E D * Latest_Model.outcome E * list (list E)) :=
  do '(s', x) <- Latest_Model.step f n c s o; Ok (s', x, match x with Latest_Model.Published set => [set] | _ => [] end).
(** latest_time.hpp:128-136: setRateConfig has no lock *)
Definition latest_takes {E D} (o : Latest_Model.op E D) : bool := match o with Latest_Model.SetConfig _ => false | _ => true end.
