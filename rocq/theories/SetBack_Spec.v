(** Vocabulary for a policy whose output callbacks change its parameters: the calls made so far,
    and sequences of sets each of which is judged by what was output before it. *)
From Coq Require Import List Arith ZArith Bool.
From Verif Require Import Base ApproxSet_Model ApproxSet_Spec SetBack_Model.
Import ListNotations.
Local Open Scope Z_scope.

Section Spec.
Context {E : Type}.
Variable cb : list (list E) -> list (op E).

(** All calls made by the callback while the sets [outs] were output one by one. *)
Definition made (outs : list (list E)) : list (op E) :=
  flat_map (fun k => cb (firstn (S k) outs)) (seq 0 (length outs)).

(** The parameters in force once the sets [outs] were output: the ones set last. *)
Definition interval_after (c0 : Approx_Model.cfg) (outs : list (list E)) : Z :=
  last (intervals_set (made outs)) (Approx_Model.max_interval c0).
Definition scale_after (c0 : Approx_Model.cfg) (outs : list (list E)) : Z -> Z :=
  last (map factor (penalties_set (made outs))) (Approx_Model.scale c0).
Definition bound_after (c0 : Approx_Model.cfg) (outs : list (list E)) (i : nat) : Z :=
  last (bounds_set i (made outs)) (Approx_Model.bound c0 i).

(** The callback only calls setters, with arguments they accept. *)
Definition only_sets (n : nat) : Prop :=
  forall outs, Forall (allowed n) (cb outs) /\ adds (cb outs) = [].

(** The first thing the callback does is to add a message. *)
Definition adds_first : Prop := forall outs, exists i e rest, cb outs = Add i e :: rest.

(** No addition finds more than queue_size messages held after its search. *)
Definition roomy (stamp : E -> Z) (c0 : Approx_Model.cfg) (h : list (nat * E)) : Prop :=
  forall h1 i e h2, h = h1 ++ (i, e) :: h2 ->
  forall c1 s1 o1 c2 s2 o2, run_cb stamp cb c0 (Approx_Model.init c0) [] h1 = Ok (c1, s1, o1) ->
    add_process_cb stamp cb c1 s1 o1 i e = Ok (c2, s2, o2) ->
    (length (nth i (Approx_Model.pending s2) []) <= Approx_Model.queue_size c0)%nat.

(** A sequence of sets: each one is related by [P] to the sets output before it and to the
    positions following the last of them. *)
Inductive sets_after (n : nat)
  (P : list (list E) -> (nat -> nat) -> (nat -> nat) -> list E -> Prop)
  : list (list E) -> (nat -> nat) -> list (list E) -> (nat -> nat) -> Prop :=
| sa_nil prior base base' : (forall i, (i < n)%nat -> base i = base' i) ->
    sets_after n P prior base [] base'
| sa_cons prior base x X outs base' :
    P prior base x X -> sets_after n P (prior ++ [X]) (fun i => S (x i)) outs base' ->
    sets_after n P prior base (X :: outs) base'.

Definition each_set_after (n : nat)
  (P : list (list E) -> (nat -> nat) -> (nat -> nat) -> list E -> Prop) (outs : list (list E)) : Prop :=
  exists base', sets_after n P [] (fun _ => 0%nat) outs base'.
End Spec.
