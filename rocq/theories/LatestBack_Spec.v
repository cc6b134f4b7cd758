(** Vocabulary for a LatestTime policy whose output callbacks change its parameters. *)
From Coq Require Import List Arith ZArith Bool.
From Verif Require Import Base RclTime Latest_Model LatestBack_Model.
Import ListNotations.

Section Spec.
Context {E D : Type}.
Variable src : nat -> clock.
Variable cb : list (list E) -> list (call E D).

(** The clock in use after some calls: the one set last. *)
Definition clock_after (k : nat) (cs : list (call E D)) : nat :=
  fold_left (fun k c => match c with CClock k' => k' | _ => k end) cs k.

(** The callback does not add messages. *)
Definition never_adds : Prop := forall o i e r, ~ In (CAdd i e r) (cb o).

(** The first thing the callback does is to add a message. *)
Definition adds_first : Prop := forall o, exists i e r rest, cb o = CAdd i e r :: rest.

(** All sets among some outcomes. *)
Definition all_published (xs : list (outcome E)) : list (list E) := flat_map published xs.

(** The same calls of a policy without callbacks: each addition at the time read from the clock
    then in use - set from outside or, given the outcomes [xs], by the callbacks - and only the
    configurations set from outside.  Setting the clock is replaced by setting the configuration
    [conf] that is already set. *)
Fixpoint script (k : nat) (conf : list (config D)) (seen : list (list E)) (h : list (call E D))
    (xs : list (outcome E)) : list (op E D) :=
  match h, xs with
  | CAdd i e r :: h', x :: xs' =>
      Add i e (mkTime (r k) (src k)) ::
      script (match x with Published set => clock_after k (cb (seen ++ [set])) | _ => k end)
             conf (seen ++ published x) h' xs'
  | CConfig cs :: h', x :: xs' => SetConfig cs :: script k cs (seen ++ published x) h' xs'
  | CClock k' :: h', x :: xs' => SetConfig conf :: script k' conf (seen ++ published x) h' xs'
  | _, _ => []
  end.

(** The calls with all times forgotten. *)
Definition untimed (h : list (call E D)) : list (op E D) :=
  map (fun c => match c with CAdd i e _ => Add i e time_default | _ => SetConfig [] end) h.
End Spec.
