(** Data races and deadlocks. *)
From Coq Require Import List Arith Bool.
From Verif Require Import Base Race_Model.
Import ListNotations.

(** a data race: two threads are about to access the same variable, one of them writes *)
Definition access (i : instr) : option (var * bool) := match i with Rd v => Some (v, false) | Wr v => Some (v, true) | _ => None end.
Definition race (s : state) : Prop :=
  exists t1 t2 i1 i2 r1 r2 v w1 w2, t1 <> t2 /\ nth_error (rest s) t1 = Some (i1 :: r1) /\ nth_error (rest s) t2 = Some (i2 :: r2) /\
    access i1 = Some (v, w1) /\ access i2 = Some (v, w2) /\ w1 || w2 = true.
(** no execution of threads that call methods of [ms] reaches a data race *)
Definition race_free (ms : list code) : Prop :=
  forall ts sched, Forall (calls ms) ts -> ~ race (exec sched (start ts)).

(** every execution of threads that call methods of [ms] can be continued until all have finished *)
Definition deadlock_free (ms : list code) : Prop :=
  forall ts sched, Forall (calls ms) ts -> exists more, Forall (fun r => r = []) (rest (exec more (exec sched (start ts)))).

(** the connections lead from filters to filters with greater numbers: the network has no cycle *)
Definition acyclic (n : net) : Prop := forall o k l o', nth_error n o = Some (k, l) -> In o' l -> o < o'.
