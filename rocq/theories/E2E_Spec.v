(** Vocabulary for a synchronizer in a network: from the filters it is connected to, to the sets
    it outputs. *)
From Coq Require Import List Arith ZArith.
From Verif Require Import Base RclTime Net_Model Net_Spec.
From Verif Require Exact_Model Exact_Spec Eps_Model Approx_Model Latest_Model.
Import ListNotations.
Local Open Scope Z_scope.

Section Spec.
Context {S M U : Type}.
Notation op := (op S M U).

(** The program [h] creates filters without any message being passed, then connects the
    synchronizer [n] with [k] inputs to the filters [fs], then goes on with [h2], in which it may
    do anything but connect or destroy [n] or add messages to it by hand.  [tr] is what happens
    during [h2]. *)
Record synchronizes (fuel : nat) (h1 : list op) (n k : nat) (fs : list nat) (h2 : list op)
    (tr : list (obs M U)) : Prop := mkSynchronizes {
  sy_quiet : forall o, In o h1 -> quiet o = true;
  sy_run : exists s rs, run fuel [] (h1 ++ ConnectInput n fs :: h2) = Ok (s, rs) /\
             created (Synchronizer k) n (h1 ++ ConnectInput n fs :: h2) rs /\
             tr = trace (skipn (Datatypes.S (length h1)) rs);
  sy_connects : never (connects n) h2;
  sy_destroys : never (destroys n) h2;
  sy_feeds : never (feeds n) h2;
  sy_joins : never (joins n) (h1 ++ ConnectInput n fs :: h2);
  sy_all : length fs = k
}.

(** The sets a synchronizer [n] passes to its callbacks are what its policy makes of the
    messages the network gives to its inputs (synchronizer.hpp:170-174), in their order. *)
Definition exact_sets (stamp : M -> Z) (k q n : nat) (tr : list (obs M U)) : list (list M) :=
  Exact_Spec.signals (snd (Exact_Model.run stamp k q Exact_Model.init (received n tr))).
Definition eps_sets (stamp : M -> Z) (k q : nat) (eps : Z) (n : nat) (tr : list (obs M U)) : res (list (list M)) :=
  do '(_, outs) <- Eps_Model.run stamp k q eps (Eps_Model.init k) (received n tr); Ok outs.
Definition approx_sets (stamp : M -> Z) (c : Approx_Model.cfg) (n : nat) (tr : list (obs M U)) : res (list (list M)) :=
  do '(_, outs) <- Approx_Model.run stamp c (Approx_Model.init c) (received n tr); Ok outs.

(** The calls of LatestTime: the [j]-th message reaches it when its clock shows [now j]. *)
Definition latest_calls {D} (now : nat -> time) (n : nat) (tr : list (obs M U)) : list (Latest_Model.op M D) :=
  map (fun x => Latest_Model.Add (fst (snd x)) (snd (snd x)) (now (fst x)))
      (combine (seq 0 (length (received n tr))) (received n tr)).

(** One message per filter, in the place of its filter, all with stamp [t] *)
Definition signalled_together (stamp : M -> Z) (fs : list nat) (tr : list (obs M U)) (t : Z) (X : list M) : Prop :=
  length X = length fs /\
  forall i f e, nth_error fs i = Some f -> nth_error X i = Some e -> In e (outputs f tr) /\ stamp e = t.
End Spec.
