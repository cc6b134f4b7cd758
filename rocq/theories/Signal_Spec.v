(** Independent vocabulary for filter outputs. *)
From Coq Require Import List Arith Bool Sorted.
From Verif Require Import Base Signal_Model.
Import ListNotations.

Section Spec.
Context {C M : Type}.

(** The number of registrations in a history: the next one is number [registrations h]. *)
Definition registrations (h : list (op C M)) : nat :=
  length (filter (fun o => match o with Register _ => true | _ => false end) h).

(** Registration number [k] was made, of callback [c], and has not been disconnected
    since. *)
Definition connected (h : list (op C M)) (k : nat) (c : C) : Prop :=
  exists h1 h2, h = h1 ++ Register c :: h2 /\ registrations h1 = k /\ ~ In (Disconnect (Some k)) h2.

(** [l] lists the connected callbacks in registration order, each once. *)
Definition all_connected (h : list (op C M)) (l : list (nat * C)) : Prop :=
  StronglySorted (fun a b => fst a < fst b) l /\ forall k c, In (k, c) l <-> connected h k c.

(** Callbacks that leave this signal alone and do not throw. *)
Definition passive (acts : C -> M -> list (act C M)) : Prop := forall c m, acts c m = [].
End Spec.
