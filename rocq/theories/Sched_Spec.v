(** Vocabulary of the properties of concurrent executions. *)
From Coq Require Import List Arith Bool.
From Verif Require Import Base Sched_Model.
Import ListNotations.

(** A sequential order of calls is a list of (thread, call).  The calls of one thread: *)
Definition calls_of {A} (tid : nat) (order : list (nat * A)) : list A :=
  map snd (filter (fun x => Nat.eqb (fst x) tid) order).
(** [order] is an interleaving of the threads' lists of calls *)
Definition interleaving {A} (calls : list (list A)) (order : list (nat * A)) : Prop :=
  (forall x, In x order -> fst x < length calls) /\
  forall tid ops, nth_error calls tid = Some ops -> calls_of tid order = ops.
(** [order] contains the calls that the threads have begun: a prefix of each list *)
Definition begun {A} (calls : list (list A)) (order : list (nat * A)) : Prop :=
  (forall x, In x order -> fst x < length calls) /\
  forall tid ops, nth_error calls tid = Some ops -> exists rest, ops = calls_of tid order ++ rest.

(** every thread has finished its calls *)
Definition finished {P R} (c : config P R) : Prop := forall t, In t (threads c) -> t = Out Done.
(** no thread is in the middle of a section *)
Definition idle {P R} (c : config P R) : Prop := forall tid l b k, nth_error (threads c) tid <> Some (Within l b k).

(** the threads that took mutex [l], in this order *)
Definition takers (l : nat) (acq : list (nat * nat)) : list nat := map fst (filter (fun x => Nat.eqb (snd x) l) acq).
