(** Independent vocabulary for TimeSequencer. *)
From Coq Require Import List Arith ZArith Bool Sorted.
From Verif Require Import Base RclTime Trace Seq_Model.
Import ListNotations.
Local Open Scope Z_scope.

Section Spec.
Context {E : Type} (stamp : E -> time).

Definition at_ns (e : E) : Z := ns (stamp e).

(** All stamps are system-clock times (for instance through a user-provided TimeStamp
    trait, as in the unit tests of the repository). *)
Definition system_stamps : Prop := forall e, clk (stamp e) = SystemClock.

(** The messages added by a history, in order. *)
Definition added (h : list (op E)) : list E :=
  flat_map (fun o => match o with Add e => [e] | Tick _ => [] end) h.

(** A clock that does not run backwards during one tick. *)
Definition monotone (nows : nat -> Z) : Prop := forall a b, (a <= b)%nat -> nows a <= nows b.

(** Messages with stamp [t], in the given order. *)
Definition with_stamp (t : Z) (l : list E) : list E := filter (fun e => at_ns e =? t) l.
End Spec.
