(** Independent vocabulary for InputAligner. *)
From Coq Require Import List Arith ZArith Bool Sorted.
From Verif Require Import Base RclTime Trace Aligner_Model.
Import ListNotations.
Local Open Scope Z_scope.

Section Spec.
Context {E : Type}.

(** The operations name existing inputs. *)
Definition well_indexed (n : nat) (h : list (op E)) : Prop :=
  (forall i e, In (Add i e) h -> (i < n)%nat) /\ (forall i p, In (SetPeriod i p) h -> (i < n)%nat).

(** The additions of a history, in order, as (input, message) pairs. *)
Definition adds (h : list (op E)) : list (nat * E) :=
  flat_map (fun o => match o with Add i e => [(i, e)] | _ => [] end) h.

(** The periods input [i] has ever had: the default 0 and those set. *)
Definition a_period (h : list (op E)) (i : nat) (p : Z) : Prop := p = 0 \/ In (SetPeriod i p) h.

(** The period of input [i] after a history: the last one set, 0 if none. *)
Fixpoint period_from (p0 : Z) (i : nat) (h : list (op E)) : Z :=
  match h with
  | [] => p0
  | SetPeriod j p :: h' => period_from (if Nat.eqb j i then p else p0) i h'
  | _ :: h' => period_from p0 i h'
  end.
Definition period_in_force : nat -> list (op E) -> Z := period_from 0.

(** [reach h outs s]: the states [s] an aligner with [n] inputs can be in, including those
    between two iterations of the loop of dispatchMessages, with the calls begun ([h]) and
    the messages forwarded ([outs]) so far. *)
Inductive reach (stamp : E -> Z) (n : nat) (timeout : Z) : list (op E) -> list (nat * E) -> state E -> Prop :=
| R_init : reach stamp n timeout [] [] (init n)
| R_add h outs s s' i e : reach stamp n timeout h outs s -> (i < n)%nat -> add stamp s i e = Ok s' ->
    reach stamp n timeout (h ++ [Add i e]) outs s'
| R_period h outs s s' i p : reach stamp n timeout h outs s -> (i < n)%nat -> set_period s i p = Ok s' ->
    reach stamp n timeout (h ++ [SetPeriod i p]) outs s'
| R_dispatch h outs s : reach stamp n timeout h outs s -> reach stamp n timeout (h ++ [Dispatch]) outs s
| R_first h outs s s' o b : reach stamp n timeout h outs s -> dispatch_first stamp timeout s = Ok (s', o, b) ->
    reach stamp n timeout h (outs ++ o) s'.
End Spec.
