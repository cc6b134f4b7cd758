(** Vocabulary for C115: when handing out a message is harmless. *)
From Coq Require Import List Arith Bool.
From Verif Require Import Base Event_Model Event_Spec Keep_Model.
Import ListNotations.

Section Spec.
Context {V T : Type}.

(** [c] is the only callback behind [x], and no filter on the way to it has another connection *)
Inductive alone (c : callback V) : node V -> Prop :=
| alone_user : alone c (User c)
| alone_filter x : alone c x -> alone c (Filter [x]).
(** Handing the event to a filter's callbacks is harmless unless it demands no copies and a lone callback asks
    for non-const access *)
Definition harmless (e : event T) (cbs : list (node V)) : Prop :=
  need e = true \/ forall c, alone c (Filter cbs) -> mutable_form (fm c) = false.
(** For a synchronizer: every callback takes every message as const unless the event demands copies *)
Definition harmless9 (es : list (event T)) (cbs : list (callback9 V)) : Prop :=
  forall c, In c cbs -> Forall2 (fun e f => need e = true \/ mutable_form f = false) es (fms c).

(** All that happens is harmless *)
Fixpoint careful (s : state V T) (h : list (op V T)) : Prop :=
  match h with
  | [] => True
  | o :: h' =>
      match o with
      | Hand k cbs => forall e, nth_error (kept s) k = Some e -> harmless e cbs
      | Hand9 ks cbs => forall es, Forall2 (fun k e => nth_error (kept s) k = Some e) ks es -> harmless9 es cbs
      | _ => True
      end /\ forall s', step s o = Ok s' -> careful s' h'
  end.

(** The program refers to what exists, and synchronizer callbacks have one parameter per message *)
Definition possible (s : state V T) (o : op V T) : Prop :=
  match o with
  | New _ _ _ => True
  | Hand k _ => k < length (kept s)
  | Hand9 ks cbs => (forall k, In k ks -> k < length (kept s)) /\ forall c, In c cbs -> length (fms c) = length ks
  | Late j _ => j < length (granted s)
  end.
(** Every event of the history demands copies, as those made from a message pointer do *)
Definition all_demand_copies (h : list (op V T)) : Prop := forall v t nc, In (New v t nc) h -> nc = true.
(** The number of filters in a tree of callbacks *)
Fixpoint filters (x : node V) : nat := match x with User _ => 0 | Filter l => S (list_sum (map filters l)) end.
(** What a kept event's message contains now *)
Definition content (s : state V T) (k : nat) : option V :=
  match nth_error (kept s) k with Some e => nth_error (mem s) (msg e) | None => None end.
End Spec.
