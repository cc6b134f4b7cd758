(** Independent vocabulary for copied policies: what a program says about each object. *)
From Coq Require Import List Arith Bool.
From Verif Require Import Base Copy_Model.
Import ListNotations.

(** Per object: the messages its ancestors had received when it was copied from them, the messages
    it has received itself, and whether it is a synchronizer. *)
Record facts (I : Type) := mkFacts { inherited : list I; own : list I; is_sync : bool }.
Arguments mkFacts {I}. Arguments inherited {I}. Arguments own {I}. Arguments is_sync {I}.

Section Spec.
Context {I O : Type}.

(** What the object would pass on to a copy *)
Definition lineage (f : facts I) : list I := inherited f ++ own f.

Definition note (l : list (facts I)) (o : op I) : list (facts I) :=
  match o with
  | NewPolicy => l ++ [mkFacts [] [] false]
  | CopyPolicy k => match nth_error l k with Some f => l ++ [mkFacts (lineage f) [] false] | None => l end
  | Construct k => match nth_error l k with Some f => l ++ [mkFacts (lineage f) [] true] | None => l end
  | Add k x => match nth_error l k with Some f => upd k (mkFacts (inherited f) (own f ++ [x]) (is_sync f)) l | None => l end
  | Assign _ _ | RegisterDrop _ _ => l
  end.
Definition known (h : list (op I)) : list (facts I) := fold_left note h [].

(** Programs refer to existing objects, add messages to synchronizers, and assign nothing. *)
Definition allowed (h : list (op I)) : Prop :=
  forall h1 o h2, h = h1 ++ o :: h2 ->
    match o with
    | NewPolicy => True
    | CopyPolicy k | Construct k | RegisterDrop k _ => k < length (known h1)
    | Add k _ => exists f, nth_error (known h1) k = Some f /\ is_sync f = true
    | Assign _ _ => False
    end.

(** Every object copied satisfies [P] (given what it and its ancestors have received). *)
Definition copied_when (P : list I -> Prop) (h : list (op I)) : Prop :=
  forall h1 o h2 k f, h = h1 ++ o :: h2 -> o = CopyPolicy k \/ o = Construct k ->
    nth_error (known h1) k = Some f -> P (lineage f).

(** The messages added satisfy [P]. *)
Definition adding (P : I -> Prop) (h : list (op I)) : Prop := forall k x, In (Add k x) h -> P x.

(** The sets given to the callbacks of synchronizer [k], and the calls of drop callback [c]. *)
Definition sets_for (k : nat) (calls : list (target * O)) : list O :=
  flat_map (fun c => match fst c with Synced k' => if Nat.eqb k' k then [snd c] else [] | Dropped _ => [] end) calls.
Definition drops_for (c : nat) (calls : list (target * O)) : list O :=
  flat_map (fun x => match fst x with Dropped c' => if Nat.eqb c' c then [snd x] else [] | Synced _ => [] end) calls.

(** The messages added to object [k] *)
Definition added_to (k : nat) (h : list (op I)) : list I :=
  flat_map (fun o => match o with Add j x => if Nat.eqb j k then [x] else [] | _ => [] end) h.

(** No object is assigned to *)
Definition no_assign (h : list (op I)) : Prop := forall k j, ~ In (Assign k j) h.

(** Drop callback [c] is registered nowhere else in a program [h1; registerDropCallback; h2]. *)
Definition registered_once (c : nat) (h1 h2 : list (op I)) : Prop :=
  forall k', ~ In (RegisterDrop k' c) (h1 ++ h2).
End Spec.

(** A policy by itself: a sequence of messages, the final state and the outputs. *)
Fixpoint run_policy {S I O} (pstep : S -> I -> res (S * list O)) (s : S) (h : list I) : res (S * list O) :=
  match h with
  | [] => Ok (s, [])
  | x :: h' =>
      do '(s1, o1) <- pstep s x;
      do '(s2, o2) <- run_policy pstep s1 h';
      Ok (s2, o1 ++ o2)
  end.
