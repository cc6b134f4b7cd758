(** Independent vocabulary for messages, events and copies. *)
From Coq Require Import List Arith Bool.
From Verif Require Import Base Event_Model.
Import ListNotations.

Section Spec.
Context {V T : Type}.

(** The number of user callbacks reached through a callback or filter. *)
Fixpoint users (x : node V) : nat :=
  match x with User _ => 1 | Filter l => list_sum (map users l) end.
Definition all_users (l : list (node V)) : nat := list_sum (map users l).

(** Existing objects keep their contents. *)
Definition unchanged (h h' : heap V) : Prop := forall a v, nth_error h a = Some v -> nth_error h' a = Some v.

(** The addresses through which callbacks can write. *)
Definition writable (l : list (access V)) : list nat :=
  flat_map (fun a => match a with Mutable a => [a] | _ => [] end) l.

(** Forms giving non-const access. *)
Definition mutable_form (fm : form) : bool :=
  match fm with MutSharedRef | MutShared | EventMut | EventConstCopied => true | _ => false end.

(** ** Programs with events: what a user expects of each event, from the history alone. *)
Record info := mkInfo { is_const : bool; original : V; received_at : T; copies : bool }.
Definition describe (l : list info) (o : op V T) : list info :=
  match o with
  | New c v t nc => l ++ [mkInfo c v t nc]
  | Copy k c =>
      match nth_error l k with Some i => l ++ [mkInfo c (original i) (received_at i) (copies i)] | None => l end
  | CopyWith k c nc =>
      match nth_error l k with Some i => l ++ [mkInfo c (original i) (received_at i) nc] | None => l end
  | _ => l
  end.
Definition infos (h : list (op V T)) : list info := fold_left describe h [].

(** Programs use created events only, and write through MessageEvent<M> only. *)
Definition legal (h : list (op V T)) : Prop :=
  forall h1 o h2, h = h1 ++ o :: h2 ->
    match o with
    | Copy k _ | CopyWith k _ _ | Get k | GetConst k => k < length (infos h1)
    | Write k _ => exists i, nth_error (infos h1) k = Some i /\ is_const i = false
    | New _ _ _ _ => True
    end.

(** Copies are made of MessageEvent<M const> only. *)
Definition const_sources (h : list (op V T)) : Prop :=
  forall h1 h2 k c o i, h = h1 ++ o :: h2 -> (o = Copy k c \/ exists nc, o = CopyWith k c nc) ->
    nth_error (infos h1) k = Some i -> is_const i = true.
(** Every MessageEvent<M> demands copies. *)
Definition all_copying (h : list (op V T)) : Prop :=
  forall k i, nth_error (infos h) k = Some i -> is_const i = false -> copies i = true.

(** The last value written through event [k], if any. *)
Definition written (h : list (op V T)) (k : nat) : option V :=
  fold_left (fun acc o => match o with Write k' v => if Nat.eqb k' k then Some v else acc | _ => acc end) h None.
End Spec.
Arguments info : clear implicits.
