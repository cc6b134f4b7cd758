(** Vocabulary for drop callbacks. *)
From Coq Require Import List Arith Bool.
From Verif Require Import Base Event_Model.
Import ListNotations.

(** Forms of parameters that can stand for a message that is missing. *)
Definition nullable (f : form) : bool :=
  match f with ConstSharedRef | ConstShared | EventConst => true | _ => false end.

Section Spec.
Context {V T : Type}.
(** The messages of the set are const events of messages that exist. *)
Definition present (h : heap V) (t : list (option (event T))) (vs : list (option V)) : Prop :=
  Forall2 (fun o v => match o, v with
                      | Some e, Some v => const e = true /\ nth_error h (msg e) = Some v
                      | None, None => True
                      | _, _ => False
                      end) t vs.
(** The callbacks can be called with every missing message of the set. *)
Definition tolerates (t : list (option (event T))) (c : callback9 V) : Prop :=
  forall i f, nth_error t i = Some None -> nth_error (fms c) i = Some f -> nullable f = true.
End Spec.
