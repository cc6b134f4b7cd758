(** Model of copying synchronization policies: synchronizer.hpp:67-92 (a Synchronizer is
    constructed from a copy of a policy object), the copy constructors and assignment operators of
    the policies, and the pointer parent_ by which a policy reaches its synchronizer.

    Objects are policy objects: alone, or the policy part of a Synchronizer (getPolicy(),
    synchronizer.hpp:152).  They are never destroyed.  The policy is a parameter: its initial
    state, add<i>, the effect of the copy constructor and of operator= on everything but parent_
    and the drop signal. *)
From Coq Require Import List Arith Bool ZArith.
From Verif Require Import Base.
From Verif Require Exact_Model Eps_Model Approx_Model.
Import ListNotations.

Section Objects.
Context {S I O : Type}.
Context (pinit : S) (pstep : S -> I -> res (S * list O)) (pcopy : S -> S) (passign : S -> S -> S).
Context (is_drop : O -> bool).

(** parent_ (exact_time.hpp:187 and likewise in the other policies), the callbacks of drop_signal_
    (exact_time.hpp:190; no others have one), everything else *)
Record object := mkObject { parent : option nat; drop_callbacks : list nat; content : S }.

(** [NewPolicy]: a policy object; [CopyPolicy k]: a policy object constructed as a copy of
    object [k]; [Construct k]: a synchronizer constructed from object [k]; [Assign k j]: object
    [j] assigned to object [k]; [RegisterDrop k c]: registerDropCallback on object [k];
    [Add k x]: add<i> on object [k]. *)
Inductive op :=
| NewPolicy | CopyPolicy (k : nat) | Construct (k : nat) | Assign (k j : nat)
| RegisterDrop (k c : nat) | Add (k : nat) (x : I).
(** Who is called: the callbacks registered on synchronizer [k], or drop callback [c] *)
Inductive target := Synced (k : nat) | Dropped (c : nat).

(** parent_->signal(...) or drop_signal_.call(...) (exact_time.hpp:147, 182) *)
Definition deliver (p : nat) (cbs : list nat) (o : O) : list (target * O) :=
  if is_drop o then map (fun c => (Dropped c, o)) cbs else [(Synced p, o)].

(** One operation: the objects afterwards and the callbacks called.
    [NewPolicy]: exact_time.hpp:62-66; [CopyPolicy]: exact_time.hpp:68-71 (the drop signal of the
    copy is a new one); [Construct]: synchronizer.hpp:67-79, 87-90 (initParent); [Assign]:
    exact_time.hpp:73-81 (parent_ is assigned, too, the drop signal is not); [Add]:
    exact_time.hpp:88-102, assert(parent_). *)
Definition step (w : list object) (o : op) : res (list object * list (target * O)) :=
  match o with
  | NewPolicy => Ok (w ++ [mkObject None [] pinit], [])
  | CopyPolicy k =>
      match nth_error w k with
      | None => Err UB
      | Some b => Ok (w ++ [mkObject (parent b) [] (pcopy (content b))], [])
      end
  | Construct k =>
      match nth_error w k with
      | None => Err UB
      | Some b => Ok (w ++ [mkObject (Some (length w)) [] (pcopy (content b))], [])
      end
  | Assign k j =>
      match nth_error w k, nth_error w j with
      | Some a, Some b =>
          Ok (upd k (mkObject (parent b) (drop_callbacks a) (passign (content a) (content b))) w, [])
      | _, _ => Err UB
      end
  | RegisterDrop k c =>
      match nth_error w k with
      | None => Err UB
      | Some b => Ok (upd k (mkObject (parent b) (drop_callbacks b ++ [c]) (content b)) w, [])
      end
  | Add k x =>
      match nth_error w k with
      | None => Err UB
      | Some b =>
          match parent b with
          | None => Err AssertFailed
          | Some p =>
              do '(s, outs) <- pstep (content b) x;
              Ok (upd k (mkObject (parent b) (drop_callbacks b) s) w,
                  flat_map (deliver p (drop_callbacks b)) outs)
          end
      end
  end.

(** A program: the objects at the end and all calls, in order *)
Fixpoint run (w : list object) (h : list op) : res (list object * list (target * O)) :=
  match h with
  | [] => Ok (w, [])
  | o :: h' =>
      do '(w1, c1) <- step w o;
      do '(w2, c2) <- run w1 h';
      Ok (w2, c1 ++ c2)
  end.
End Objects.
Arguments object : clear implicits.
Arguments op : clear implicits.

(** exact_time.hpp:73-81 (operator=): everything *)
Definition exact_copy {E} (s : Exact_Model.state E) : Exact_Model.state E := s.
(** exact_time.hpp:88-102, as a function that may fail *)
Definition exact_step {E} (stamp : E -> Z) (n q : nat) (s : Exact_Model.state E) (x : nat * E)
  : res (Exact_Model.state E * list (Exact_Model.out E)) := Ok (Exact_Model.add stamp n q s x).
(** exact_time.hpp:180-184: what goes to the drop signal *)
Definition exact_is_drop {E} (o : Exact_Model.out E) : bool :=
  match o with Exact_Model.Drop _ => true | Exact_Model.Signal _ => false end.

(** approximate_epsilon_time.hpp:75-89 (copy constructor): number_of_non_empty_events_ is not
    copied; it is 0 (approximate_epsilon_time.hpp:286) *)
Definition eps_copy {E} (s : Eps_Model.state E) : Eps_Model.state E := Eps_Model.mkState 0 (Eps_Model.events s).
(** approximate_epsilon_time.hpp:81-89 (operator=): the target keeps its own
    number_of_non_empty_events_ *)
Definition eps_assign {E} (a b : Eps_Model.state E) : Eps_Model.state E :=
  Eps_Model.mkState (Eps_Model.count a) (Eps_Model.events b).

(** approximate_time.hpp:92-110 (operator=): everything but candidate_ *)
Definition approx_assign {E} (a b : Approx_Model.state E) : Approx_Model.state E :=
  Approx_Model.mkState (Approx_Model.deques b) (Approx_Model.num b) (Approx_Model.past b) (Approx_Model.candidate a)
    (Approx_Model.cstart b) (Approx_Model.cend b) (Approx_Model.pivot b) (Approx_Model.ptime b)
    (Approx_Model.dropped b) (Approx_Model.warned b).
