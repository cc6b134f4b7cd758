(** Chains that own their filters, seen from the program. *)
From Coq Require Import List Arith.
From Verif Require Import Base Net_Model Net_Spec.
Import ListNotations.

Section Spec.
Context {S M U : Type}.
Notation op := (op S M U).
Notation class := (class S M).
Notation obs := (obs M U).

(** The program made chain [c] and gave it filters, each once and to no other use, and destroyed neither it
    nor them; subscribers, which have no input, come first if at all. *)
Record assembled (c : nat) (h : list op) (rs : list (result * list obs)) : Prop := mkAssembled {
  as_chain : created Chain c h rs;
  as_proper : chained_properly h;
  as_self : ~ In c (added c h);
  as_alive : forall f, f = c \/ In f (added c h) -> never (destroys f) h;
  as_sources : forall j f, nth_error (added c h) (Datatypes.S j) = Some f -> exists cl, created cl f h rs /\ cl <> Source
}.
(** The chain owns a filter that is not its first and whose destructor disconnects *)
Definition owns_detaching (own : nat -> bool) (c : nat) (h : list op) (rs : list (result * list obs)) : Prop :=
  exists j f cl, nth_error (added c h) (Datatypes.S j) = Some f /\ own f = true /\ created cl f h rs /\
    match cl with Cache | Sequencer | Synchronizer _ => True | Custom _ d _ _ => d = true | Source | PassThrough | Chain => False end.
(** The filters of the user that exist after the destruction of chain [c]: those that existed, except [c] and
    the filters it owned *)
Definition only_owned_gone (own : nat -> bool) (c : nat) (h : list op) (s s' : state S M U) : Prop :=
  forall n, (exists x, user s' n = Ok x) <-> (exists x, user s n = Ok x) /\ n <> c /\ ~ (own n = true /\ In n (added c h)).
End Spec.
