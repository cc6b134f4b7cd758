(** What it means that a filter can be destroyed while other threads deliver messages to it. *)
From Coq Require Import List Arith Bool.
From Verif Require Import Base Dtor_Model.
Import ListNotations.

(** a thread that only makes the upstream filters signal *)
Definition emitter (p : list op) : Prop := forall o, In o p -> exists j, o = Emit j.
(** a thread that may also run the executor that runs the timer *)
Definition spinner (p : list op) : Prop := forall o, In o p -> o = Fire \/ exists j, o = Emit j.

(** One thread, number [d], destroys the filter by [dtor], before and after which it does [pre] and [post] *)
Definition destroyer (pre dtor post : list op) : list op := pre ++ dtor ++ End :: post.
Definition program (before : list (list op)) (p : list op) (after : list (list op)) : list (list op) := before ++ p :: after.

(** Whatever the threads do and however they are scheduled, no member is used after its destruction *)
Definition safe_destructor (k : nat) (up : nat -> nat) (tm : bool) (dtor : list op) : Prop :=
  forall pre post before after sched, spinner pre -> spinner post -> Forall emitter before -> Forall emitter after ->
    exec k up sched (start k tm (program before (destroyer pre dtor post) after)) <> Err UB.

(** All threads have made all their calls *)
Definition finished (s : state) : Prop := forall t, In t (threads s) -> t = (Idle, []).

(** what a destructor consists of *)
Definition parts (l : list op) : Prop := forall o, In o l -> o = Cancel \/ exists i, o = Disc i.
