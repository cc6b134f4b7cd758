(** Model of the destruction of a Chain that owns filters: include/message_filters/chain.hpp, on top of the
    networks of [Net_Model].

    A chain keeps its filters by shared pointers; a filter for which it holds the only one is destroyed with
    it.  Filters given by bare pointer have a deleter that does nothing (chain.hpp:122-138), filters to which
    the user keeps a pointer survive.  In which order the elements of the vector are destroyed is not
    specified: first to last in libstdc++, last to first in libc++.  A chain among the filters is taken to
    own none of its own. *)
From Coq Require Import List Arith Bool.
From Verif Require Import Base Net_Model.
Import ListNotations.

Section Own.
Context {S M U : Type}.
Notation state := (state S M U).
(** the filters to which only the chain has a pointer *)
Variable own : nat -> bool.

(** The destructor of a filter, as in [Net_Model.step] for [Destroy] *)
Definition end_filter (s : state) (n : nat) : res state :=
  do x <- live s n;
  do s1 <- (if detaches (cls x) then disconnect_all s (ins x) else Ok s);
  Ok (kill_all s1 (n :: map snd (filters x))).
(** chain.hpp:234-239: the members of FilterInfo are destroyed in reverse order: passthrough, filter,
    add_func *)
Definition drop_elem (s : state) (e : nat * nat) : res state :=
  let s1 := kill_all s [snd e] in if own (fst e) then end_filter s1 (fst e) else Ok s1.
(** The elements of filters_ (chain.hpp:242), in the order given *)
Fixpoint drop_elems (s : state) (l : list (nat * nat)) : res state :=
  match l with [] => Ok s | e :: t => do s1 <- drop_elem s e; drop_elems s1 t end.

(** The ways in which a vector destroys its elements *)
Inductive order := FirstToLast | LastToFirst.
(** No counterpart in the code: a list in that order *)
Definition ordered {A} (o : order) (l : list A) : list A := match o with FirstToLast => l | LastToFirst => rev l end.
(** The destructor of Chain (none is declared; chain.hpp:242-245): the connections do nothing
    (connection.hpp:47-70), then filters_, then the base class with the signal *)
Definition destroy_chain (o : order) (s : state) (c : nat) : res state :=
  do x <- live s c;
  match cls x with
  | Chain => do s1 <- drop_elems s (ordered o (filters x)); Ok (kill_all s1 [c])
  | _ => Err UB                                   (* does not compile *)
  end.
End Own.
