(** When a TimeSequencer has all it needs: messages that arrive before they are due, and room. *)
From Coq Require Import List Arith ZArith Bool.
From Verif Require Import Base RclTime Trace Seq_Model Seq_Spec.
Import ListNotations.
Local Open Scope Z_scope.

Section Spec.
Context {E : Type} (stamp : E -> time).
Notation t_ := (at_ns stamp).

(** Every message is stamped after the epoch and added before the clock, as read by any tick before,
    shows the moment at which it is due. *)
Definition in_time (d : Z) (h : list (op E)) : Prop :=
  forall h1 e h2, h = h1 ++ Add e :: h2 ->
    0 <= t_ e /\ forall nows k, In (Tick nows) h1 -> nows k < t_ e + d.

(** The messages that were not due at any tick since they were added. *)
Definition wait_step (d : Z) (w : list E) (o : op E) : list E :=
  match o with
  | Add e => w ++ [e]
  | Tick nows => filter (fun e => nows 0%nat <? t_ e + d) w
  end.
Definition waiting (d : Z) (h : list (op E)) : list E := fold_left (wait_step d) h [].

(** The queue is unlimited or has room for all waiting messages at any time. *)
Definition queue_suffices (q : nat) (d : Z) (h : list (op E)) : Prop :=
  q = 0%nat \/
  (forall nows, In (Tick nows) h -> monotone nows) /\
  forall h1 h2, h = h1 ++ h2 -> (length (waiting d h1) <= q)%nat.

(** [l] consists of the messages [m] in the order of the stamps, those with equal stamps in the order of [m]. *)
Definition stably_sorted (m l : list E) : Prop :=
  nondecreasing t_ l /\ forall t, with_stamp stamp t l = with_stamp stamp t m.
End Spec.
