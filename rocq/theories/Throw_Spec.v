(** Independent vocabulary for filters whose callbacks may throw.  A history is a list of
    calls, each with an oracle saying which of the callbacks it calls throw; a trace has one
    entry per call: the callbacks called, in order, and whether an exception left the call
    (thrown by the last callback called). *)
From Coq Require Import List Arith.
Import ListNotations.

Section Spec.
Context {I O : Type}.

(** The calls of a history. *)
Definition calls_of (h : list (I * (nat -> bool))) : list I := map fst h.

(** No callback throws. *)
Definition no_exceptions (h : list (I * (nat -> bool))) : Prop :=
  forall x th k, In (x, th) h -> th k = false.

(** All callbacks that were called, whether they returned or threw. *)
Definition begun (tr : list (list O * bool)) : list O := flat_map fst tr.

(** What of one call's callbacks returned: all, or all but the last one. *)
Definition returned_of (c : list O * bool) : list O :=
  match c with (o, true) => removelast o | (o, false) => o end.

(** All callbacks that returned normally. *)
Definition returned (tr : list (list O * bool)) : list O := flat_map returned_of tr.

(** The exception of a callback leaves the call and ends it: of the callbacks called, the [k]-th
    threw exactly if it was the last one and an exception left the call; and an exception leaves
    only if a callback threw. *)
Definition reaches (th : nat -> bool) (called : list O) (threw : bool) : Prop :=
  (forall k, k < length called -> (th k = true <-> threw = true /\ S k = length called)) /\
  (threw = true -> called <> []).
End Spec.
