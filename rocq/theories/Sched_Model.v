(** Threads, mutexes and schedules: how the methods of the filters take their locks.

    A thread's program is a sequence of critical sections, each under one mutex.  Each mutex [l]
    protects its own part of the memory.  Inside a section the thread performs any number of
    actions; the scheduler may switch threads before and after every one of them.  The next
    actions and sections of a thread may depend on the values read (type [R]).
    Simplifications: memory is sequentially consistent (C++ guarantees this to programs without
    data races, see Race_Model); a mutex is not taken twice by the same thread (C69 and C73 are
    about that); mutexes taken inside a section (those of the signal, taken by an add that holds the
    mutex of its filter) belong to the section; which thread gets a free mutex is decided by the
    scheduler. *)
From Coq Require Import List Arith Bool.
From Verif Require Import Base.
Import ListNotations.

Section Machine.
Context {P R : Type}.
(** the rest of a critical section *)
Inductive sect := SRet (r : R) | SAct (f : P -> P * R) (k : R -> sect).
(** the rest of a program that is outside of its sections *)
Inductive prog := Done | Sec (l : nat) (b : sect) (k : R -> prog).
(** A thread: outside of the sections, or inside a section under mutex [l] *)
Inductive thread := Out (p : prog) | Within (l : nat) (b : sect) (k : R -> prog).
(** The memory protected by each mutex, the holders of the mutexes, the threads *)
Record config := mkConfig { part : nat -> P; owner : nat -> option nat; threads : list thread }.
(** No counterpart in the code: changing one entry of a map *)
Definition set {A} (f : nat -> A) (l : nat) (x : A) : nat -> A := fun l' => if Nat.eqb l' l then x else f l'.

(** thread [tid] is scheduled: nothing happens if it has finished or waits for a mutex.  The second
    component tells which mutex it took, if it took one. *)
Definition step (tid : nat) (c : config) : config * list (nat * nat) :=
  match nth_error (threads c) tid with
  | Some (Out (Sec l b k)) =>
      match owner c l with
      | None => (mkConfig (part c) (set (owner c) l (Some tid)) (upd tid (Within l b k) (threads c)), [(tid, l)])
      | Some _ => (c, [])
      end
  | Some (Within l (SAct f k') k) =>
      let (p, r) := f (part c l) in (mkConfig (set (part c) l p) (owner c) (upd tid (Within l (k' r) k) (threads c)), [])
  | Some (Within l (SRet r) k) => (mkConfig (part c) (set (owner c) l None) (upd tid (Out (k r)) (threads c)), [])
  | Some (Out Done) | None => (c, [])
  end.
(** A schedule: the threads in the order in which they make a step; which mutex was taken when *)
Fixpoint exec (sched : list nat) (c : config) : config * list (nat * nat) :=
  match sched with
  | [] => (c, [])
  | t :: r => let (c1, a1) := step t c in let (c2, a2) := exec r c1 in (c2, a1 ++ a2)
  end.
(** All mutexes free, all threads at the start of their programs *)
Definition start (p0 : nat -> P) (ps : list prog) : config := mkConfig p0 (fun _ => None) (map Out ps).

(** the effect of a section that is not interrupted *)
Fixpoint sect_run (b : sect) (p : P) : P * R :=
  match b with SRet r => (p, r) | SAct f k => let (p', r) := f p in sect_run (k r) p' end.
End Machine.
Arguments sect : clear implicits.
Arguments prog : clear implicits.
Arguments thread : clear implicits.
Arguments config : clear implicits.

(** ** The methods *)
Section Methods.
Context {P R : Type}.
(** A method whose whole body holds the mutex of its object:
    ExactTime::add (sync_policies/exact_time.hpp:88-102, lock in 96),
    ApproximateTime::add (sync_policies/approximate_time.hpp:165-201, lock in 168),
    ApproximateEpsilonTime::add (sync_policies/approximate_epsilon_time.hpp:96-113, lock in 101),
    LatestTime::add (sync_policies/latest_time.hpp:144-168, lock in 149),
    InputAligner::addEvent and dispatchMessages (input_aligner.hpp:339-364 and 226-241, locks in 347
    and 230),
    Signal1::addCallback, removeCallback and call (signal1.hpp:84-114, locks in 89, 96, 106), the same
    in Signal9 (signal9.hpp:91-99 and 129-149, locks in 96, 131, 141). *)
Definition locked_method (b : sect P R) (rest : prog P R) : prog P R := Sec 0 b (fun _ => rest).
(** a thread that calls such methods one after the other *)
Definition locked_calls {Op} (body : Op -> sect P R) (ops : list Op) : prog P R :=
  fold_right (fun o => locked_method (body o)) Done ops.
End Methods.

(** A method that computes, holding the mutex of its object (mutex 0), which messages to output, and
    then gives them to the signal one by one, holding the mutex of the signal (mutex 1) each time:
    Cache::add (cache.hpp:125-159): cache_lock_ is held for the insertion (130-156), the message is
    given to signalMessage afterwards (158), unless the insertion threw;
    TimeSequencer::add (time_sequencer.hpp:146-160, lock in 150): outputs nothing;
    TimeSequencer::dispatch (time_sequencer.hpp:190-219): the messages that are due are taken holding
    messages_mutex_ (196-210) and then given to signalMessage in a loop (212-218).
    The part of mutex 1 is the list of the messages given to the callbacks: Signal1::call
    (signal1.hpp:104-114) calls them holding the mutex. *)
Section TwoPhase.
Context {S E : Type}.
(** The memory under mutex 0 is the state of the filter, that under mutex 1 the messages output *)
Definition two_part : Type := S + list E.
(** time_sequencer.hpp:212-218, cache.hpp:158: signalMessage for every message *)
Fixpoint emit_all (signal : E -> sect two_part (list E)) (es : list E) (rest : prog two_part (list E)) : prog two_part (list E) :=
  match es with [] => rest | e :: r => Sec 1 (signal e) (fun _ => emit_all signal r rest) end.
(** One call: the section of the filter, then the sections of the signal *)
Definition two_phase (b : sect two_part (list E)) (signal : E -> sect two_part (list E)) (rest : prog two_part (list E)) : prog two_part (list E) :=
  Sec 0 b (fun to_call => emit_all signal to_call rest).
(** A thread that calls such methods one after the other *)
Definition two_calls {Op} (body : Op -> sect two_part (list E)) (signal : E -> sect two_part (list E)) (ops : list Op) : prog two_part (list E) :=
  fold_right (fun o => two_phase (body o) signal) Done ops.
(** nothing output yet *)
Definition two_start (s : S) : nat -> two_part := fun l => match l with O => inl s | _ => inr [] end.
End TwoPhase.
Arguments two_part : clear implicits.

(** The Python Cache has no lock: Cache.add (src/message_filters/__init__.py:121-150).  The global
    interpreter lock makes each operation on a list one step, nothing more: each operation is a
    section of its own.  The part is cache_times and cache_msgs.  Left out: messages without stamp and
    signalMessage. *)
Section PyCache.
Context {M : Type} (stamp : M -> nat) (cache_size : nat).
(** __init__.py:110-113: cache_times and cache_msgs *)
Definition py_lists : Type := list nat * list M.
(** One operation on the lists *)
Definition py_op (f : py_lists -> py_lists) : sect py_lists nat := SAct (fun p => (f p, 0)) SRet.
(** __init__.py:141-147: the part of add that changes the lists *)
Definition py_add (m : M) (rest : prog py_lists nat) : prog py_lists nat :=
  Sec 0 (py_op (fun p => (fst p ++ [stamp m], snd p))) (fun _ =>              (* 141 *)
  Sec 0 (py_op (fun p => (fst p, snd p ++ [m]))) (fun _ =>                    (* 142 *)
  Sec 0 (SAct (fun p => (p, length (snd p))) SRet) (fun len =>                (* 145 *)
  if Nat.ltb cache_size len then
    Sec 0 (py_op (fun p => (fst p, tl (snd p)))) (fun _ =>                    (* 146 *)
    Sec 0 (py_op (fun p => (tl (fst p), snd p))) (fun _ => rest))             (* 147 *)
  else rest))).
(** A thread that adds messages one after the other *)
Definition py_adds (ms : list M) : prog py_lists nat := fold_right py_add Done ms.
(** the same calls, one after the other: what one thread alone does *)
Definition py_add_alone (p : py_lists) (m : M) : py_lists :=
  let t := fst p ++ [stamp m] in let l := snd p ++ [m] in
  if Nat.ltb cache_size (length l) then (tl t, tl l) else (t, l).
End PyCache.
