(** Vocabulary for C114: calls that took place one after the other. *)
From Coq Require Import List.
From Verif Require Import Base Reent_Model.
Import ListNotations.

Section Spec.
Context {St Op Res Msg : Type}.
Variable body : St -> Op -> res (St * Res * list Msg).
Notation entry := (Op * Res * list Msg)%type.

(** The calls [tr], made one after the other and without callbacks, lead from [s] to [s'] with these results *)
Inductive replay : St -> list entry -> St -> Prop :=
| replay_nil s : replay s [] s
| replay_cons s s1 s' o r ms tr : body s o = Ok (s1, r, ms) -> replay s1 tr s' -> replay s ((o, r, ms) :: tr) s'.

(** The calls made by a callback, with their results: they signal nothing *)
Inductive made : prog Op Res -> list entry -> Prop :=
| made_ret : made Ret []
| made_call o k r cs : made (k r) cs -> made (Call o k) ((o, r, []) :: cs).
Variable callback : list entry -> Msg -> prog Op Res.
(** The callback is given each message in turn and makes the calls [cs] in total, [past] being those before *)
Inductive heard : list entry -> list Msg -> list entry -> Prop :=
| heard_nil past : heard past [] []
| heard_cons past m ms a b : made (callback past m) a -> heard (past ++ a) ms b -> heard past (m :: ms) (a ++ b).
(** [tr] consists of the calls [h] of the user in order, each followed by the calls made by the callbacks when
    given the messages it signals *)
Inductive nested : list entry -> list Op -> list entry -> Prop :=
| nested_nil past : nested past [] []
| nested_cons past o r ms cs h tr : heard (past ++ [(o, r, ms)]) ms cs -> nested (past ++ (o, r, ms) :: cs) h tr ->
    nested past (o :: h) ((o, r, ms) :: cs ++ tr).

(** The callback makes only calls in [P] (and does not touch connections), whatever their results *)
Fixpoint only (P : Op -> Prop) (p : prog Op Res) : Prop :=
  match p with Ret => True | Call o k => P o /\ (forall r, only P (k r)) | Wire _ => False end.
(** A call that signals nothing *)
Definition silent (o : Op) : Prop := forall s s' r ms, body s o = Ok (s', r, ms) -> ms = [].
(** The filter's methods themselves do not block *)
Definition never_blocks : Prop := forall s o, body s o <> Err Deadlock.
End Spec.

(** The method called, and the messages signalled in total *)
Definition calls {Op Res Msg : Type} (tr : list (Op * Res * list Msg)) : list Op := map (fun e => fst (fst e)) tr.
Definition signalled {Op Res Msg : Type} (tr : list (Op * Res * list Msg)) : list Msg := flat_map snd tr.
