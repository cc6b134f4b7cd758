(** When an InputAligner merges its inputs: regular inputs none of which times out. *)
From Coq Require Import List Arith ZArith Bool Sorted.
From Verif Require Import Base RclTime Trace Aligner_Model Aligner_Spec.
Import ListNotations.
Local Open Scope Z_scope.

Section Spec.
Context {E : Type} (stamp : E -> Z).

(** Earlier, or at the same time on an input that does not come later in the list of inputs. *)
Definition before (x y : nat * E) : Prop :=
  stamp (snd x) < stamp (snd y) \/ stamp (snd x) = stamp (snd y) /\ (fst x <= fst y)%nat.

(** A history whose inputs keep their periods: input [i] has the non-negative period [per i] from the first message on,
    its messages are stamped after the epoch and at least a period apart, in order; and whenever messages are dispatched,
    no input has fallen behind: each has delivered a message with which it is expected again less than the timeout
    before the newest message. *)
Record timely (n : nat) (timeout : Z) (per : nat -> Z) (h : list (op E)) : Prop := {
  tm_period : forall i, 0 <= per i;
  tm_force : forall h1 h2 i, h = h1 ++ h2 -> adds h1 <> [] -> (i < n)%nat -> period_in_force i h1 = per i;
  tm_start : forall i e, In (i, e) (adds h) -> 0 <= stamp e;
  tm_gap : forall i l1 x y l2, stream i (adds h) = l1 ++ x :: y :: l2 -> stamp x + per i <= stamp y;
  tm_present : forall h1 h2 i y, h = h1 ++ Dispatch :: h2 -> (i < n)%nat -> In y (adds h1) ->
    exists x, In (i, x) (adds h1) /\ stamp (snd y) - (stamp x + per i) < timeout }.

(** [m] merges the inputs [h]: it has the same messages on each input, in the order of stamps and then inputs. *)
Definition merge_of (h m : list (nat * E)) : Prop :=
  StronglySorted before m /\ forall i, stream i m = stream i h.
End Spec.
