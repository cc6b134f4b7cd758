(** Vocabulary for ApproximateTime with setters: which calls are allowed, what they add, which
    parameters were in force. *)
From Coq Require Import List Arith ZArith Bool.
From Verif Require Import Base ApproxSet_Model.
From Verif Require Approx_Model.
Import ListNotations.
Local Open Scope Z_scope.

(** The arguments the setters accept: no negative durations or penalties, inputs that exist. *)
Definition allowed {E} (n : nat) (o : op E) : Prop :=
  match o with
  | Add i _ => (i < n)%nat
  | SetAgePenalty p => nonneg p = true
  | SetLowerBound i b => (i < n)%nat /\ 0 <= b
  | SetMaxInterval d => 0 <= d
  end.

(** The messages added, with their inputs. *)
Definition adds {E} (h : list (op E)) : list (nat * E) :=
  flat_map (fun o => match o with Add i e => [(i, e)] | _ => [] end) h.

(** A duration is not shorter after it was multiplied by 1 + penalty. *)
Definition lengthens (f : Z -> Z) : Prop := forall d, 0 <= d -> d <= f d.

(** All maximum intervals, all penalties and all lower bounds of an input that are ever set. *)
Definition intervals_set {E} (h : list (op E)) : list Z :=
  flat_map (fun o => match o with SetMaxInterval d => [d] | _ => [] end) h.
Definition penalties_set {E} (h : list (op E)) : list penalty :=
  flat_map (fun o => match o with SetAgePenalty p => [p] | _ => [] end) h.

Definition bounds_set {E} (i : nat) (h : list (op E)) : list Z :=
  flat_map (fun o => match o with SetLowerBound j b => if Nat.eqb j i then [b] else [] | _ => [] end) h.

(** From the state [s] on, no addition finds more than queue_size messages held after its
    search. *)
Definition no_overflow_from {E} (stamp : E -> Z) (c : Approx_Model.cfg) (s : Approx_Model.state E)
  (h : list (nat * E)) : Prop :=
  forall h1 i e h2, h = h1 ++ (i, e) :: h2 ->
  forall s1 o1 s2 o2, Approx_Model.run stamp c s h1 = Ok (s1, o1) ->
    Approx_Model.add_process stamp c s1 i e = Ok (s2, o2) ->
    (length (nth i (Approx_Model.pending s2) []) <= Approx_Model.queue_size c)%nat.
