(** The timers of TimeSequencer and InputAligner and the destruction of these filters.

    TimeSequencer::init (include/message_filters/time_sequencer.hpp:221-227) and
    InputAligner::setupDispatchTimer (input_aligner.hpp:208-220) create a wall timer whose callback
    captures [this]; the filter keeps the only lasting reference to it (update_timer_, 233;
    dispatch_timer_, 431).

    What is assumed of rclcpp: the node refers to the timer weakly.  An executor that waits makes
    a weak reference a strong one ([Collect]), which fails if no strong reference exists.  Later
    it either drops the timer ([Drop]) or asks whether it is cancelled and, if not, calls the
    callback ([Begin], [Finish]); cancel() does not wait for a callback that runs.
    Simplifications: what the callback does is left out, it uses members of the filter when it
    begins and when it ends; when timers are due is left out: an executor may collect a timer
    whenever it exists.  Any number of executors, or threads of one, run at the same time.  A
    thread that destroys the filter in a callback run by an executor is covered, as every
    interleaving is. *)
From Coq Require Import List Arith Bool.
From Verif Require Import Base.
Import ListNotations.

(** The steps of a destructor: cancel() of the timer in use, the release of the reference to it,
    the end of the life of the other members *)
Inductive part := PCancel | PRelease | PEnd.

(** time_sequencer.hpp:140-144; update_timer_ (233) is declared before messages_, messages_mutex_
    and last_time_ (237-239), so they are destroyed before it *)
Definition sequencer_dtor : list part := [PCancel; PEnd; PRelease].
(** input_aligner.hpp:111-114 does not mention the timer; dispatch_timer_ (431) is the last member,
    so it is the first to be destroyed *)
Definition aligner_dtor : list part := [PRelease; PEnd].

(** An executor does not hold a timer, holds one, runs the callback of one *)
Inductive phase := Away | Holding (t : nat) | Running (t : nat).

(** Whether the members exist; the timer in use; how many timers were created; which were
    cancelled; the executors; the steps of the destructor still to be made *)
Record state := mkState {
  alive : bool; cur : option nat; count : nat; cancelled : list nat; execs : list phase; todo : list part }.

(** What happens: a timer is set up; the next step of the destructor; steps of executor [e] *)
Inductive event := Setup | Part | Collect (e t : nat) | Begin (e : nat) | Finish (e : nat) | Drop (e : nat).

(** A member of the filter is used *)
Definition touch (s : state) (r : state) : res state := if alive s then Ok r else Err UB.
(** No counterpart in the code: executor [e] changes its phase *)
Definition goto (s : state) (e : nat) (p : phase) : state :=
  mkState (alive s) (cur s) (count s) (cancelled s) (upd e p (execs s)) (todo s).

(** Whether an executor has a reference to timer [t] *)
Definition refers (t : nat) (p : phase) : bool :=
  match p with Away => false | Holding u | Running u => Nat.eqb u t end.
(** Whether timer [t] exists: there is a strong reference to it *)
Definition exists_timer (s : state) (t : nat) : bool :=
  match cur s with Some u => Nat.eqb u t | None => false end || existsb (refers t) (execs s).

(** One step of a destructor *)
Definition do_part (s : state) (p : part) (l : list part) : state :=
  match p with
  | PCancel =>
      mkState (alive s) (cur s) (count s)
        (match cur s with Some t => t :: cancelled s | None => cancelled s end) (execs s) l
  | PRelease => mkState (alive s) None (count s) (cancelled s) (execs s) l
  | PEnd => mkState false (cur s) (count s) (cancelled s) (execs s) l
  end.

(** One event; an event that is impossible changes nothing *)
Definition step (s : state) (v : event) : res state :=
  match v with
  | Setup => touch s (mkState (alive s) (Some (count s)) (S (count s)) (cancelled s) (execs s) (todo s))
  | Part => match todo s with [] => Ok s | p :: l => Ok (do_part s p l) end
  | Collect e t =>
      match nth_error (execs s) e with
      | Some Away => if exists_timer s t then Ok (goto s e (Holding t)) else Ok s
      | _ => Ok s
      end
  | Begin e =>
      match nth_error (execs s) e with
      | Some (Holding t) =>
          if existsb (Nat.eqb t) (cancelled s) then Ok (goto s e Away) else touch s (goto s e (Running t))
      | _ => Ok s
      end
  | Finish e =>
      match nth_error (execs s) e with Some (Running _) => touch s (goto s e Away) | _ => Ok s end
  | Drop e =>
      match nth_error (execs s) e with Some (Holding _) => Ok (goto s e Away) | _ => Ok s end
  end.

(** A sequence of events *)
Fixpoint run (s : state) (h : list event) : res state :=
  match h with [] => Ok s | v :: h' => do s' <- step s v; run s' h' end.

(** [m] executors; a TimeSequencer has its timer from its construction (100-105, 120-125), an
    InputAligner none *)
Definition sequencer (m : nat) : state := mkState true (Some 0) 1 [] (repeat Away m) sequencer_dtor.
Definition aligner (m : nat) : state := mkState true None 0 [] (repeat Away m) aligner_dtor.
