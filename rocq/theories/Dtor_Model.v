(** Filters destroyed while other threads deliver messages to them.

    A filter with inputs 0, 1, ... is connected to upstream filters that outlive it; input [i] is connected
    to upstream filter [up i], several inputs may be connected to the same one.  A thread makes calls one
    after the other; calling a callback takes two steps, its beginning and its end, and between any two
    steps other threads may run.  Using a member of the filter after the end of its destructor is [Err UB].
    Simplifications: what the filter computes is left out, so are the other callbacks of the upstream
    filters; a callback of the filter uses members of the filter when it begins and when it ends.  A timer
    that has been cancelled or released is not started any more by the executor (rclcpp), but cancelling
    does not wait for a callback that is running. *)
From Coq Require Import List Arith Bool.
From Verif Require Import Base.
Import ListNotations.

(** What a thread does: upstream filter [j] signals a message; the executor runs the filter's timer
    callback if the timer is due; and the parts of destructors: Connection::disconnect of input [i], the
    timer is cancelled or released, the members are destroyed. *)
Inductive op := Emit (j : nat) | Fire | Disc (i : nat) | Cancel | End.

(** ** The destructors up to the end of the members' life *)
(** cache.hpp:93-96 *)
Definition cache_dtor : list op := [Disc 0].
(** time_sequencer.hpp:140-144 *)
Definition sequencer_dtor : list op := [Cancel; Disc 0].
(** synchronizer.hpp:82-85, 163-168 (disconnectAll) *)
Definition synchronizer_dtor (k : nat) : list op := map Disc (seq 0 k).
(** input_aligner.hpp:111-114, 332-337 (disconnectAll); dispatch_timer_ (431) is the last member, so it is
    released first *)
Definition aligner_dtor (k : nat) : list op := map Disc (seq 0 k) ++ [Cancel].
(** pass_through.hpp, chain.hpp: no destructor, ~Connection does nothing (connection.hpp:47-70) *)
Definition passthrough_dtor : list op := [].

Section Dtor.
Variable k : nat.              (* number of inputs *)
Variable up : nat -> nat.      (* the upstream filter of an input *)

(** Where a thread is: between calls; in front of a mutex; in Signal1::call (signal1.hpp:104-114) with the
    inputs still to be called, outside or inside a callback; in removeCallback (94-102) holding the mutex;
    in the timer callback *)
Inductive phase := Idle | Waiting (o : op) | Calling (j : nat) (l : list nat) | Inside (j : nat) (l : list nat) | Unhooking (i : nat) | Firing.

(** Whether the filter exists; which inputs are registered with their upstream filter; whether the timer
    runs; the owners of the upstream filters' mutexes; the threads with the calls they still have to make *)
Record state := mkState {
  alive : bool; conn : nat -> bool; timer : bool; owner : nat -> option nat; threads : list (phase * list op) }.

(** No counterpart in the code: changing one value of a function *)
Definition set_at {A} (f : nat -> A) (n : nat) (x : A) : nat -> A := fun m => if Nat.eqb m n then x else f m.
(** No counterpart in the code: thread [t] goes on to phase [p] with calls [l] to make *)
Definition goto (s : state) (t : nat) (p : phase) (l : list op) : state :=
  mkState (alive s) (conn s) (timer s) (owner s) (upd t (p, l) (threads s)).
(** No counterpart in the code: a mutex changes its owner *)
Definition own (s : state) (j : nat) (o : option nat) : state :=
  mkState (alive s) (conn s) (timer s) (set_at (owner s) j o) (threads s).
(** A member of the filter is used *)
Definition touch (s : state) (r : state) : res state := if alive s then Ok r else Err UB.

(** the mutex a call locks: the one of the signal of an upstream filter *)
Definition mutex_of (o : op) : nat := match o with Disc i => up i | Emit j => j | _ => 0 end.
(** signal1.hpp:108-113: the callbacks of the filter registered with upstream filter [j], in order *)
Definition registered (s : state) (j : nat) : list nat := filter (fun i => conn s i && Nat.eqb (up i) j) (seq 0 k).

(** Thread [t] is scheduled *)
Definition step (t : nat) (s : state) : res state :=
  match nth_error (threads s) t with
  | None | Some (Idle, []) => Ok s
  | Some (Idle, o :: l) =>
      match o with
      | Emit _ => Ok (goto s t (Waiting o) l)
      | Disc _ => touch s (goto s t (Waiting o) l)        (* incoming_connection_, input_connections_ *)
      | Fire => if timer s then touch s (goto s t Firing l) else Ok (goto s t Idle l)
      | Cancel => touch s (goto (mkState (alive s) (conn s) false (owner s) (threads s)) t Idle l)
      | End => touch s (goto (mkState false (conn s) (timer s) (owner s) (threads s)) t Idle l)
      end
  | Some (Waiting o, l) =>
      match owner s (mutex_of o) with
      | None =>
          Ok (goto (own s (mutex_of o) (Some t)) t
                   (match o with Disc i => Unhooking i | _ => Calling (mutex_of o) (registered s (mutex_of o)) end) l)
      | Some _ => Ok s
      end
  | Some (Calling j [], l) => Ok (goto (own s j None) t Idle l)
  | Some (Calling j r, l) => touch s (goto s t (Inside j r) l)
  | Some (Inside j r, l) => touch s (goto s t (Calling j (tl r)) l)
  | Some (Unhooking i, l) =>
      Ok (goto (own (mkState (alive s) (set_at (conn s) i false) (timer s) (owner s) (threads s)) (up i) None) t Idle l)
  | Some (Firing, l) => touch s (goto s t Idle l)
  end.
(** A schedule *)
Fixpoint exec (sched : list nat) (s : state) : res state :=
  match sched with [] => Ok s | t :: r => do s' <- step t s; exec r s' end.

(** All inputs connected, the timer running iff [tm], no call begun *)
Definition start (tm : bool) (ps : list (list op)) : state :=
  mkState true (fun i => i <? k) tm (fun _ => None) (map (pair Idle) ps).
End Dtor.
