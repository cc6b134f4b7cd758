(** Independent vocabulary for networks of filters: streams of a trace, behaviours on streams,
    what a program does to the wiring. *)
From Coq Require Import List Arith Bool.
From Verif Require Import Base Net_Model.
Import ListNotations.

Section Spec.
Context {S M U : Type}.
Notation obs := (obs M U).
Notation op := (op S M U).
Notation class := (class S M).

(** ** Streams of a trace *)
(** messages received by input [i] of filter [n], in order *)
Definition inputs (n i : nat) (tr : list obs) : list M :=
  flat_map (fun o => match o with Input n' i' m => if Nat.eqb n' n && Nat.eqb i' i then [m] else [] | _ => [] end) tr.
(** all messages received by filter [n], with the input *)
Definition received (n : nat) (tr : list obs) : list (nat * M) :=
  flat_map (fun o => match o with Input n' i m => if Nat.eqb n' n then [(i, m)] else [] | _ => [] end) tr.
(** messages signalled by filter [n] *)
Definition outputs (n : nat) (tr : list obs) : list M :=
  flat_map (fun o => match o with Output n' m => if Nat.eqb n' n then [m] else [] | _ => [] end) tr.
(** messages the user callbacks satisfying [p] are called with *)
Definition calls (p : U -> bool) (tr : list obs) : list M :=
  flat_map (fun o => match o with Called u m => if p u then [m] else [] | _ => [] end) tr.

(** the trace of a whole program *)
Definition trace {R} (rs : list (R * list obs)) : list obs := flat_map snd rs.

(** A filter as a function on streams: from a state and a list of received messages to the
    state afterwards and the messages signalled. *)
Fixpoint transform (f : S -> nat -> M -> S * list M) (x : S) (l : list (nat * M)) : S * list M :=
  match l with
  | [] => (x, [])
  | (i, m) :: l' => let '(x1, o1) := f x i m in let '(x2, o2) := transform f x1 l' in (x2, o1 ++ o2)
  end.

(** Filters one after the other, each with its state and behaviour. *)
Fixpoint compose (fs : list (S * (S -> nat -> M -> S * list M))) (l : list M) : list M :=
  match fs with
  | [] => l
  | (x, f) :: fs' => compose fs' (snd (transform f x (map (pair 0) l)))
  end.

(** ** What a program does to filter [n] *)
Definition connects (n : nat) (o : op) : bool :=
  match o with ConnectInput n' _ => Nat.eqb n' n | AddFilter _ f _ => Nat.eqb f n | _ => false end.
Definition joins (n : nat) (o : op) : bool := match o with AddFilter _ f _ => Nat.eqb f n | _ => false end.
Definition destroys (n : nat) (o : op) : bool := match o with Destroy n' => Nat.eqb n' n | _ => false end.
Definition feeds (n : nat) (o : op) : bool := match o with Add n' _ _ => Nat.eqb n' n | _ => false end.
Definition drives (n : nat) (o : op) : bool := match o with Emit n' _ => Nat.eqb n' n | _ => false end.
Definition extends_chain (c : nat) (o : op) : bool := match o with AddFilter c' _ _ => Nat.eqb c' c | _ => false end.
Definition never (p : op -> bool) (h : list op) : Prop := forall o, In o h -> p o = false.
Definition times (p : op -> bool) (h : list op) : nat := length (filter p h).

(** the filters added to chain [c], in order *)
Definition added (c : nat) (h : list op) : list nat :=
  flat_map (fun o => match o with AddFilter c' f _ => if Nat.eqb c' c then [f] else [] | _ => [] end) h.

(** Filters handed to a chain are left to it: added once, never connected by hand. *)
Definition chained_properly (h : list op) : Prop :=
  forall f, 1 <= times (joins f) h -> times (connects f) h = 1.

(** The program creates filter [n] as [cl] with initial state [x0]: the result of the creation is [n]. *)
Definition creates (cl : class) (x0 : S) (n : nat) (h : list op) (rs : list (result * list obs)) : Prop :=
  exists i tr, nth_error h i = Some (New cl x0) /\ nth_error rs i = Some (Created n, tr).
Definition created (cl : class) (n : nat) (h : list op) (rs : list (result * list obs)) : Prop := exists x0, creates cl x0 n h rs.

(** messages added by the program to input [i] of [n] *)
Definition adds (n i : nat) (h : list op) : list M :=
  flat_map (fun o => match o with Add n' i' m => if Nat.eqb n' n && Nat.eqb i' i then [m] else [] | _ => [] end) h.
(** no message yet *)
Definition quiet (o : op) : bool := match o with Add _ _ _ | Emit _ _ => false | _ => true end.

(** Every destroyed filter is one whose destructor disconnects it, whose connection was not
    overwritten, and which no chain uses. *)
Definition clean_destroys (h : list op) (rs : list (result * list obs)) : Prop :=
  forall ha n hb, h = ha ++ Destroy n :: hb -> never (joins n) h /\
    exists cl, created cl n h rs /\
      match cl with
      | PassThrough | Chain => False
      | Sequencer | Synchronizer _ => True
      | Source | Cache => times (connects n) ha <= 1
      | Custom r d _ _ => d = true /\ (r = true \/ times (connects n) ha <= 1)
      end.

(** A network without cycles, seen from the program: levels of the inputs and outputs of the
    filters, decreasing along every connection and along every chain. *)
Record acyclic (rin rout : nat -> nat) (h : list op) : Prop := mkAcyclic {
  ac_through : forall n, added n h = [] -> rout n < rin n;
  ac_connect : forall n fs f, In (ConnectInput n fs) h -> In f fs -> rin n < rout f;
  ac_first : forall c f, nth_error (added c h) 0 = Some f -> rin f < rin c;
  ac_next : forall c j f f', nth_error (added c h) j = Some f -> nth_error (added c h) (Datatypes.S j) = Some f' -> rin f' < rout f;
  ac_last : forall c f, In f (added c h) -> rout c < rout f
}.

(** everything filter [n] was ever connected to, directly or by a chain, still exists *)
Definition upstream_alive (n : nat) (h : list op) : Prop :=
  (forall fs g, In (ConnectInput n fs) h -> In g fs -> never (destroys g) h) /\
  (forall c s0, In (AddFilter c n s0) h -> never (destroys c) h).
End Spec.
