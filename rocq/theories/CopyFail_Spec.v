(** Vocabulary for C117. *)
From Coq Require Import List Arith Bool.
From Verif Require Import Base Event_Model CopyFail_Model.
Import ListNotations.

Section Spec.
Context {V : Type}.

(** A factory that returns a new object or throws *)
Definition honest (oc : outcome V) : Prop := match created oc with Fresh _ | CreateThrows => True | _ => False end.
(** The factory and the copying succeed *)
Definition nothing_fails (oc : outcome V) : Prop := (exists d, created oc = Fresh d) /\ assigned oc = None.
(** Copying the message threw in this call *)
Definition copy_failed (oc : outcome V) (x : fres V) : bool :=
  match x, created oc with Failed Thrown, Fresh _ => true | _, _ => false end.

(** What is known of an event from the calls and their results only: the message it was made from ([None]: null),
    and whether copying it has thrown, for it or the event it is a copy of *)
Record known := mkKnown { source : option V; spoilt : bool }.
Definition spoil (k : nat) (l : list known) : list known :=
  match nth_error l k with Some n => upd k (mkKnown (source n) true) l | None => l end.
Definition learn (l : list known) (o : fop V) (oc : outcome V) (x : fres V) : list known :=
  match o with
  | NewPtr _ v => l ++ [mkKnown (Some v) false]
  | NewNull _ | Default _ => l ++ [mkKnown None false]
  | NewFull _ v _ _ => l ++ [mkKnown v false]
  | FromVoid k _ _ | Copy k _ | CopyWith k _ _ =>
      match x with
      | Made => match nth_error l k with Some n => l ++ [n] | None => l end
      | _ => if copy_failed oc x then spoil k l else l
      end
  | Assign j k =>
      match x with
      | Made => match nth_error l k with Some n => upd j n l | None => l end
      | _ => if copy_failed oc x then spoil k l else l
      end
  | Get k => if copy_failed oc x then spoil k l else l
  | GetConst _ => l
  end.
Fixpoint learnt (l : list known) (h : list (fop V * outcome V)) (xs : list (fres V)) : list known :=
  match h, xs with
  | (o, oc) :: h', x :: xs' => learnt (learn l o oc x) h' xs'
  | _, _ => l
  end.

(** No null message, no event without a factory *)
Definition proper (o : fop V) : Prop :=
  match o with
  | NewNull _ | Default _ | NewFull _ None _ _ | NewFull _ _ _ false | FromVoid _ _ false => False
  | _ => True
  end.
(** The events an operation uses *)
Definition uses (o : fop V) : list nat :=
  match o with FromVoid k _ _ | Copy k _ | CopyWith k _ _ | Get k | GetConst k => [k] | Assign j k => [j; k] | _ => [] end.

(** The callbacks behind a filter, by their parameters, in order *)
Fixpoint users (x : fnode) : list form := match x with User f => [f] | Filter l => flat_map users l end.
(** Parameters that ask for access to a message that is not const *)
Definition mutable (f : form) : bool := match f with MutSharedRef | MutShared | EventMut | EventConstCopied => true | _ => false end.
(** Parameters that may be null *)
Definition nullable (f : form) : bool := match f with ByValue | ConstRef => false | _ => true end.
(** Can null be signalled: every callback takes a pointer or an event, and one that asks for write access gets it without a copy:
    none is demanded and there is no other callback at any filter on the way *)
Fixpoint takes_null (copy : bool) (x : fnode) : Prop :=
  match x with
  | User f => nullable f = true /\ (mutable f = true -> copy = false)
  | Filter l => fold_right (fun y P => takes_null ((1 <? length l) || copy) y /\ P) True l
  end.
End Spec.
Arguments known : clear implicits.
