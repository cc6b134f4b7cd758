(** A TimeSequencer in real time: when things happen. *)
From Coq Require Import List Arith ZArith Bool.
From Verif Require Import Base RclTime Trace Seq_Model Seq_Spec.
Import ListNotations.
Local Open Scope Z_scope.

Section Spec.
Context {E : Type} (stamp : E -> time).
Notation t_ := (at_ns stamp).

(** Calls with the times at which they start, in order, from time [t] to time [T].  The first reading of the clock in a tick is taken
    when it starts, no reading is later than the next call *)
Fixpoint timed (t T : Z) (h : list (Z * op E)) : Prop :=
  match h with
  | [] => t <= T
  | (a, Add _) :: h' => t <= a /\ timed a T h'
  | (a, Tick nows) :: h' => t <= a /\ nows 0%nat = a /\ monotone nows /\ exists b, (forall k, nows k <= b) /\ timed b T h'
  end.
(** The calls *)
Definition calls (h : list (Z * op E)) : list (op E) := map snd h.
(** The messages with the times at which they are added *)
Definition arrivals (h : list (Z * op E)) : list (Z * E) := flat_map (fun p => match snd p with Add e => [(fst p, e)] | Tick _ => [] end) h.

(** From [t0] until [T] the timer ticks at least once in any time [u] *)
Definition ticking (t0 T u : Z) (h : list (Z * op E)) : Prop :=
  forall t, t0 <= t -> t + u <= T -> exists a nows, In (a, Tick nows) h /\ t < a <= t + u.
(** Messages are stamped before they arrive, and arrive less than [d] after their stamp *)
Definition prompt (d : Z) (h : list (Z * op E)) : Prop := forall a e, In (a, e) (arrivals h) -> 0 <= t_ e <= a /\ a < t_ e + d.
(** At most [q] messages arrive in any time [w], both ends included *)
Definition rate (q : nat) (w : Z) (h : list (Z * op E)) : Prop :=
  forall t, (length (filter (fun p => (t <=? fst p)%Z && (fst p <=? t + w)%Z) (arrivals h)) <= q)%nat.
End Spec.
