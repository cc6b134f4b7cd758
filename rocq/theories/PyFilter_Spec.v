(** Vocabulary for callbacks registered with a Python filter. *)
From Coq Require Import List ZArith Bool.
From Verif Require Import PyFilter_Model.
Import ListNotations.

Section Spec.
Context {C A : Type}.
Notation event := (event C A).
(** the callbacks registered in [tr], in order, with their extra arguments *)
Definition registered (tr : list event) : list (C * list A) :=
  flat_map (fun e => match e with Registered c a _ => [(c, a)] | _ => [] end) tr.
(** the connections returned in [tr], in order *)
Definition connections (tr : list event) : list Z :=
  flat_map (fun e => match e with Registered _ _ k => [k] | _ => [] end) tr.
(** the calls made in [tr], in order, with the values passed *)
Definition calls (tr : list event) : list (C * list A) :=
  flat_map (fun e => match e with Called c x => [(c, x)] | _ => [] end) tr.
(** each of the callbacks [l] called once with message [msg] followed by its own arguments *)
Definition one_call_each (msg : list A) (l : list (C * list A)) : list (C * list A) :=
  map (fun ca => (fst ca, msg ++ snd ca)) l.
(** the elements of [l] up to and including the first with property [p] *)
Fixpoint up_to {X} (p : X -> bool) (l : list X) : list X :=
  match l with [] => [] | x :: r => if p x then [x] else x :: up_to p r end.
(** a callback that, called with the given values, raises an exception or registers a callback *)
Definition disturbs (registers : C -> list A -> list (C * list A)) (raises : C -> list A -> bool) (cx : C * list A) : bool :=
  raises (fst cx) (snd cx) || match registers (fst cx) (snd cx) with [] => false | _ => true end.
(** what signalling [msg] to the callbacks [l] looks like when none of them registers a callback: they are
    called in order up to the first that raises, and then the exception leaves the call *)
Definition signalled (raises : C -> list A -> bool) (l : list (C * list A)) (msg : list A) : list event :=
  let raising cx := raises (fst cx) (snd cx) in
  map (fun cx => Called (fst cx) (snd cx)) (up_to raising (one_call_each msg l)) ++
  if existsb raising (one_call_each msg l) then [Raised] else [].
(** what thread [t] does in [tr] *)
Definition of_thread (t : nat) (tr : list (nat * event)) : list event :=
  map snd (List.filter (fun x => Nat.eqb (fst x) t) tr).
End Spec.
