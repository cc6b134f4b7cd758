(** Vocabulary for timers that call filters. *)
From Coq Require Import List Arith Bool.
From Verif Require Import Base Timer_Model.
Import ListNotations.

(** Some executor is in the timer callback. *)
Definition somebody_runs (s : state) : Prop := exists e t, nth_error (execs s) e = Some (Running t).
(** Some executor has a reference to a timer. *)
Definition somebody_refers (s : state) : Prop := exists e p, nth_error (execs s) e = Some p /\ p <> Away.
(** Some executor has a reference to timer [t]. *)
Definition referred (t : nat) (s : state) : Prop :=
  exists e, nth_error (execs s) e = Some (Holding t) \/ nth_error (execs s) e = Some (Running t).

(** The filter is in use: no timer is set up or, if [setups], some are, and nothing is destroyed. *)
Definition in_use (setups : bool) (h : list event) : Prop :=
  ~ In Part h /\ (setups = false -> ~ In Setup h).
(** The filter is being destroyed, or was: nobody uses it but the executors. *)
Definition not_used (h : list event) : Prop := ~ In Setup h.

(** If destruction begins now, something may use the filter after the end of its life. *)
Definition may_fail (s : state) : Prop := exists h, not_used h /\ run s (Part :: h) = Err UB.
