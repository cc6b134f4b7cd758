(** Vocabulary for filters under construction. *)
From Coq Require Import List Arith Bool.
From Verif Require Import Base Ctor_Model.
Import ListNotations.

Section Spec.
Context {S E O : Type}.
(** [l] is the constructor [ctor], as far as it has come, interleaved with any messages *)
Definition constructing (ctor l : list (act E)) : Prop :=
  exists rest, ctor = filter (fun x => match x with Arrive _ _ => false | _ => true end) l ++ rest.
(** the messages that arrive on inputs already connected *)
Inductive received : list nat -> list (act E) -> list (nat * E) -> Prop :=
| R_nil c : received c [] []
| R_connect c i l r : received (i :: c) l r -> received c (Connect i :: l) r
| R_set c a l r : received c l r -> received c (Set_ a :: l) r
| R_in c i e l r : In i c -> received c l r -> received c (Arrive i e :: l) ((i, e) :: r)
| R_out c i e l r : ~ In i c -> received c l r -> received c (Arrive i e :: l) r.
(** adding these messages to a filter that is completely constructed *)
Inductive added (add : nat -> S -> E -> res (S * list O)) : S -> list (nat * E) -> S -> list O -> Prop :=
| A_nil s : added add s [] s []
| A_cons s i e l s1 o1 s2 o2 : add i s e = Ok (s1, o1) -> added add s1 l s2 o2 -> added add s ((i, e) :: l) s2 (o1 ++ o2).
End Spec.
