(** Messages that belong together: what ApproximateTime is expected to find. *)
From Coq Require Import List Arith ZArith Bool Sorted.
From Verif Require Import Base Trace.
Import ListNotations.
Local Open Scope Z_scope.

Section Spec.
Context {E : Type} (stamp : E -> Z).
Variable group : E -> nat.      (* the group a message belongs to *)
Variable n : nat.               (* number of inputs *)
Variable F : nat -> list E.     (* the messages of each input *)

(** Groups span at most [w], different groups are more than [w] apart, and no input has two messages of a group. *)
Record grouped (w : Z) : Prop := {
  gr_same : forall i j a b, (i < n)%nat -> (j < n)%nat -> In a (F i) -> In b (F j) -> group a = group b -> stamp a - stamp b <= w;
  gr_apart : forall i j a b, (i < n)%nat -> (j < n)%nat -> In a (F i) -> In b (F j) -> (group a < group b)%nat -> stamp a + w < stamp b;
  gr_once : forall i, (i < n)%nat -> NoDup (map group (F i)) }.

(** Every input has a message of group [g]. *)
Definition complete (g : nat) : Prop := forall i, (i < n)%nat -> exists e, In e (F i) /\ group e = g.

(** Every input has a message of a group after [g]. *)
Definition passed (g : nat) : Prop := forall i, (i < n)%nat -> exists e, In e (F i) /\ (g < group e)%nat.

(** No input misses a group: all have the groups of one list, up to some point. *)
Definition none_missing : Prop := exists G, forall i, (i < n)%nat -> prefix (map group (F i)) G.

(** [X] consists of the messages of group [g], one of each input. *)
Definition is_group (g : nat) (X : list E) : Prop :=
  length X = n /\ forall i, (i < n)%nat -> exists e, nth_error X i = Some e /\ In e (F i) /\ group e = g.

(** The sets are groups, in order and each once, and among them is every complete group all inputs are past. *)
Definition the_groups (outs : list (list E)) : Prop :=
  exists gs, Forall2 is_group gs outs /\ StronglySorted lt gs /\
    forall g, complete g -> passed g -> In g gs.
End Spec.
