(** Vocabulary for C118. *)
From Coq Require Import List Arith Bool.
From Verif Require Import Base EventThr_Model.
Import ListNotations.

Section Spec.
Context {V : Type}.
(** A thread that is in the middle of a call *)
Definition busy (s : state V) (t : nat) : Prop := exists th, nth_error (threads s) t = Some th /\ at_ th <> Idle.
(** All that the calls have returned *)
Definition results (s : state V) : list (nat * V) := flat_map got (threads s).

(** What a thread does next with message_copy_: whether it accesses it and whether it writes *)
Definition touches (th : thread V) : option bool :=
  match at_ th with Idle | Make => None | Test | Give | Fill => Some false | Store _ => Some true end.
(** A data race: two threads are about to access message_copy_, one of them to write it *)
Definition racing (s : state V) : Prop :=
  exists t1 t2 th1 th2 w1 w2, t1 <> t2 /\ nth_error (threads s) t1 = Some th1 /\ nth_error (threads s) t2 = Some th2 /\
    touches th1 = Some w1 /\ touches th2 = Some w2 /\ w1 || w2 = true.
End Spec.

Section Alone.
Context {V : Type} (const need : bool) (msg : nat) (d : V).
(** No step is made while another thread is in the middle of a call, as if getMessage were called under a mutex *)
Fixpoint one_at_a_time (s : state V) (sched : list nat) : Prop :=
  match sched with
  | [] => True
  | t :: r => (forall t', busy s t' -> t' = t) /\ one_at_a_time (step const need msg d s t) r
  end.
End Alone.
