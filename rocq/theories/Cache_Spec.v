(** Independent vocabulary for the properties of the message cache.  Only the API
    calls ([op]) and their results ([out]) are taken from the model. *)
From Coq Require Import List Arith ZArith Bool Sorted.
From Verif Require Import Base RclTime Trace Cache_Model.
Import ListNotations.

Section Spec.
Context {E : Type} (stamp : E -> time).

Definition key (e : E) : Z := ns (stamp e).

(** Messages added by a history, in arrival order. *)
Definition added (h : list (op E)) : list E :=
  flat_map (fun o => match o with Add e => [e] | _ => [] end) h.

(** Messages forwarded downstream according to the results of the calls. *)
Definition forwarded (xs : list (out E)) : list E :=
  flat_map (fun x => match x with Forwarded e => [e] | _ => [] end) xs.

(** The capacity in force: the last non-zero size set, [None] if there is none. *)
Fixpoint capacity (c : option nat) (h : list (op E)) : option nat :=
  match h with
  | [] => c
  | SetSize (S n) :: h' => capacity (Some (S n)) h'
  | _ :: h' => capacity c h'
  end.

(** All additions carry stamps of one clock source. *)
Definition one_clock (k : clock) (h : list (op E)) : Prop :=
  forall e, In e (added h) -> clk (stamp e) = k.

Definition with_stamp (t : Z) (l : list E) : list E := filter (fun e => Z.eqb (key e) t) l.

Definition is_suffix (a b : list E) : Prop := exists p, b = p ++ a.

(** The last [n] elements of a list. *)
Definition lastn (n : nat) (l : list E) : list E := skipn (length l - n) l.

(** [r] is the tightest slice of [l] surrounding [a, b]. *)
Definition surrounding (a b : Z) (l r : list E) : Prop :=
  (l = [] /\ r = []) \/
  exists pre post first_ more last_ but,
    l = pre ++ r ++ post /\ r = first_ :: more /\ r = but ++ [last_] /\
    (pre = [] \/ (key first_ <= a)%Z) /\
    (forall x, In x (more ++ post) -> (a < key x)%Z) /\
    (forall x, In x but -> (key x < b)%Z) /\
    (post = [] \/ (b <= key last_)%Z).

(** newest element strictly before [t], the last one among equals *)
Definition newest_before (t : Z) (l : list E) (r : option E) : Prop :=
  match r with
  | None => forall x, In x l -> (t <= key x)%Z
  | Some e => (key e < t)%Z /\
      exists l1 l2, l = l1 ++ e :: l2 /\
        (forall x, In x l1 -> (key x <= key e)%Z) /\ (forall x, In x l2 -> (t <= key x)%Z)
  end.

(** oldest element strictly after [t], the first one among equals *)
Definition oldest_after (t : Z) (l : list E) (r : option E) : Prop :=
  match r with
  | None => forall x, In x l -> (key x <= t)%Z
  | Some e => (t < key e)%Z /\
      exists l1 l2, l = l1 ++ e :: l2 /\
        (forall x, In x l1 -> (key x <= t)%Z) /\ (forall x, In x l2 -> (key e <= key x)%Z)
  end.
End Spec.
