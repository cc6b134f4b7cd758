(** Filters under construction: messages may arrive as soon as an input is connected, in another thread,
    before the constructor has returned.

    A constructor is the list of the things it does that matter here: connecting input [i] (from then on the
    messages of that input are added) and setting member [a].  Simplification: the interleaving of the
    constructor with whole calls of add; an add that needs a member that is not set fails. *)
From Coq Require Import List Arith Bool.
From Verif Require Import Base.
Import ListNotations.

Section Ctor.
Context {S E O : Type}.
(** what the filter does with a message, once constructed *)
Variable add : S -> nat -> E -> res (S * list O).
(** the members that add uses, and what happens if one is not set *)
Variable needs : S -> nat -> E -> list nat.
Variable missing : err.

(** The constructor's actions, and a message on input [i] *)
Inductive act := Connect (i : nat) | Set_ (a : nat) | Arrive (i : nat) (e : E).

(** Inputs connected, members set, state of the filter *)
Record state := mkState { conn : list nat; set : list nat; inner : S }.

(** No counterpart in the code: membership *)
Definition mem (k : nat) (l : list nat) : bool := existsb (Nat.eqb k) l.

(** One action: a message on an input that is not connected yet does not reach the filter *)
Definition step (s : state) (x : act) : res (state * list O) :=
  match x with
  | Connect i => Ok (mkState (i :: conn s) (set s) (inner s), [])
  | Set_ a => Ok (mkState (conn s) (a :: set s) (inner s), [])
  | Arrive i e =>
      if mem i (conn s) then
        if forallb (fun a => mem a (set s)) (needs (inner s) i e) then
          do '(y, o) <- add (inner s) i e; Ok (mkState (conn s) (set s) y, o)
        else Err missing
      else Ok (s, [])
  end.

(** A sequence of actions *)
Fixpoint run (s : state) (l : list act) : res (state * list O) :=
  match l with
  | [] => Ok (s, [])
  | x :: l' => do '(s1, o1) <- step s x; do '(s2, o2) <- run s1 l'; Ok (s2, o1 ++ o2)
  end.

(** Nothing connected, nothing set *)
Definition start (s0 : S) : state := mkState [] [] s0.
End Ctor.
Arguments act : clear implicits.
Arguments state : clear implicits.

(** ** Constructors; member 0 is parent_ of the policy *)
Section Constructors.
Context {E : Type}.
(** synchronizer.hpp:92-116 (connectInput with connectInputImpl, connect): one input after the other *)
Definition connect_inputs (n : nat) : list (act E) := map Connect (seq 0 n).
(** synchronizer.hpp:56-61 (filters), 68-74 (policy and filters): connectInput, then init() (87-90) *)
Definition synchronizer_with_inputs (n : nat) : list (act E) := connect_inputs n ++ [Set_ 0].
(** synchronizer.hpp:63-66, 76-80 (without filters): init(); connectInput is called afterwards by the user.
    time_synchronizer.hpp:90-95 (TimeSynchronizer): the base class without filters, then connectInput *)
Definition synchronizer_then_inputs (n : nat) : list (act E) := Set_ 0 :: connect_inputs n.

(** ** Python.  Members: 1 queue_size, 2 lock, 3 slop, 4 allow_headerless, 5 cache_size, 6 cache_msgs,
    7 cache_times *)
(** src/message_filters/__init__.py:105-116 (Cache) *)
Definition python_cache : list (act E) := [Connect 0; Set_ 5; Set_ 6; Set_ 7; Set_ 4].
(** src/message_filters/__init__.py:213-223 (TimeSynchronizer) *)
Definition python_time_synchronizer (n : nat) : list (act E) := connect_inputs n ++ [Set_ 1; Set_ 2].
(** src/message_filters/__init__.py:255-258 (ApproximateTimeSynchronizer) *)
Definition python_approximate_synchronizer (n : nat) : list (act E) := python_time_synchronizer n ++ [Set_ 3; Set_ 4].
End Constructors.
