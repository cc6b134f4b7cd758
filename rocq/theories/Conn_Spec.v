(** Vocabulary for what happens around a connection while several threads use a signal. *)
From Coq Require Import List Arith Bool.
From Verif Require Import Conn_Model.
Import ListNotations.

Section Spec.
Context {C M : Type}.
Notation event := (event C M).

(** callback [k] is not called in [tr] *)
Definition never_called (k : nat) (tr : list event) : Prop := forall t m, ~ In (Began t k m) tr.
(** after [tr] no thread is inside callback [k]: every call that began in [tr] also ended in it *)
Definition not_running (k : nat) (tr : list event) : Prop :=
  forall a b t m, tr = a ++ Began t k m :: b -> In (Ended t k m) b.
(** [b] lies within one call of thread [t]: it enters no other *)
Definition one_call (t : nat) (b : list event) : Prop := forall o, ~ In (Invoked t o) b.
(** the connection of callback [k] was returned to somebody in [tr] *)
Definition connected (k : nat) (tr : list event) : Prop := exists t c, In (Returned t (Register c) (Some k)) tr.
(** nobody has begun to disconnect [k] *)
Definition not_disconnected (k : nat) (tr : list event) : Prop := forall t, ~ In (Invoked t (Disconnect k)) tr.
(** the calls of callback [k] made by thread [t] *)
Definition calls_of (t k : nat) (tr : list event) : list M :=
  flat_map (fun e => match e with Began t' k' m => if Nat.eqb t' t && Nat.eqb k' k then [m] else [] | _ => [] end) tr.
(** the callbacks called by thread [t], in order *)
Definition called_by (t : nat) (tr : list event) : list nat :=
  flat_map (fun e => match e with Began t' k _ => if Nat.eqb t' t then [k] else [] | _ => [] end) tr.
(** at most one thread is inside a callback: between the beginning of a call and its end no other begins *)
Definition one_at_a_time (tr : list event) : Prop :=
  forall a b c t k m t' k' m', tr = a ++ Began t k m :: b ++ Began t' k' m' :: c -> In (Ended t k m) b.
End Spec.
