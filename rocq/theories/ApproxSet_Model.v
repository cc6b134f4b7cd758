(** The setters of include/message_filters/sync_policies/approximate_time.hpp (class
    ApproximateTime), called between messages.  The policy itself is Approx_Model.v; here its
    parameters are part of the state.

    Simplification: an age penalty is what the code uses of it, whether it passes the assertion
    and the multiplication of durations by (1 + age_penalty_). *)
From Coq Require Import List Arith ZArith Bool.
From Verif Require Import Base Approx_Model.
Import ListNotations.
Local Open Scope Z_scope.

(** approximate_time.hpp:203-209: the argument of setAgePenalty *)
Record penalty := mkPenalty {
  nonneg : bool;            (* age_penalty >= 0 *)
  factor : Z -> Z           (* d |-> d * (1 + age_penalty) *)
}.

(** approximate_time.hpp:203-209 (setAgePenalty) *)
Definition set_age_penalty (p : penalty) (c : cfg) : res cfg :=
  if nonneg p then Ok (mkCfg (n c) (queue_size c) (max_interval c) (factor p) (bound c))
  else Err AssertFailed.

(** approximate_time.hpp:211-217 (setInterMessageLowerBound) *)
Definition set_lower_bound (i : nat) (b : Z) (c : cfg) : res cfg :=
  if b <? 0 then Err AssertFailed
  else if Nat.ltb i (n c) then
    Ok (mkCfg (n c) (queue_size c) (max_interval c) (scale c)
              (fun j => if Nat.eqb j i then b else bound c j))
  else Err UB.

(** approximate_time.hpp:219-225 (setMaxIntervalDuration) *)
Definition set_max_interval (d : Z) (c : cfg) : res cfg :=
  if d <? 0 then Err AssertFailed
  else Ok (mkCfg (n c) (queue_size c) d (scale c) (bound c)).

(** The calls a user can make: add<i> (165-201) and the setters (203-225) *)
Inductive op (E : Type) : Type :=
| Add (i : nat) (e : E)
| SetAgePenalty (p : penalty)
| SetLowerBound (i : nat) (b : Z)
| SetMaxInterval (d : Z).
Arguments Add {E}. Arguments SetAgePenalty {E}. Arguments SetLowerBound {E}. Arguments SetMaxInterval {E}.

Section Set_.
Context {E : Type} (stamp : E -> Z).

(** One call: the parameters and the state after it and the sets it outputs *)
Definition step (c : cfg) (s : state E) (o : op E) : res (cfg * state E * list (list E)) :=
  match o with
  | Add i e => do '(s', o) <- add stamp c s (i, e); Ok (c, s', o)
  | SetAgePenalty p => do c' <- set_age_penalty p c; Ok (c', s, [])
  | SetLowerBound i b => do c' <- set_lower_bound i b c; Ok (c', s, [])
  | SetMaxInterval d => do c' <- set_max_interval d c; Ok (c', s, [])
  end.

(** A sequence of calls *)
Fixpoint run (c : cfg) (s : state E) (h : list (op E)) : res (cfg * state E * list (list E)) :=
  match h with
  | [] => Ok (c, s, [])
  | x :: h' =>
      do '(c1, s1, o1) <- step c s x;
      do '(c2, s2, o2) <- run c1 s1 h';
      Ok (c2, s2, o1 ++ o2)
  end.
End Set_.
