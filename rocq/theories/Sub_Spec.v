(** What a user of Subscriber can say: programs, and the subscriptions seen by the middleware. *)
From Coq Require Import String List Arith Bool.
From Verif Require Import Base Sub_Model.
Import ListNotations.

Section Spec.
Context {Q R O M : Type}.
Variable from_rmw : R -> Q.
Variable opts0 : O.
Variable accepts : string -> Q -> O -> bool.
Notation request := (request Q O).
Notation form := (form Q R O).
Notation event := (event Q O M).
Notation op := (op Q R O M).

(** the QoS and options an overload asks for *)
Definition asked_qos (f : form) : Q :=
  match f with Raw4 q _ | Shared4 q _ | Raw3 q | Shared3 q => q
  | RmwRaw4 r _ | RmwShared4 r _ | RmwRaw3 r | RmwShared3 r => from_rmw r end.
Definition asked_options (f : form) : O :=
  match f with Raw4 _ o | Shared4 _ o | RmwRaw4 _ o | RmwShared4 _ o => o | _ => opts0 end.

(** the last answer of [f] over a history *)
Definition last_of {A B} (f : A -> option B) (h : list A) : option B :=
  fold_left (fun acc o => match f o with Some x => Some x | None => acc end) h None.

(** the last request with a topic *)
Definition requests (o : op) : option request :=
  match o with
  | Subscribe n t f => if String.eqb t "" then None else Some (mkRequest n t (asked_qos f) (asked_options f))
  | _ => None
  end.
Definition wanted (h : list op) : option request := last_of requests h.
(** whether the user wants to be subscribed *)
Definition switches (o : op) : option bool :=
  match o with
  | Subscribe _ t _ => Some (negb (String.eqb t ""))
  | Resubscribe => Some true
  | Unsubscribe | Destroy => Some false
  | _ => None
  end.
Definition on (h : list op) : bool := match last_of switches h with Some b => b | None => false end.
(** what there should be a subscription for; a request the middleware refuses gives none *)
Definition current (h : list op) : option request :=
  if on h then match wanted h with
               | Some r => if accepts (rtopic r) (rqos r) (ropts r) then Some r else None
               | None => None
               end
  else None.

(** the subscriptions open after a list of events, oldest first *)
Definition observe (l : list (nat * request)) (e : event) : list (nat * request) :=
  match e with
  | Opened k r => l ++ [(k, r)]
  | Closed k => filter (fun x => negb (Nat.eqb (fst x) k)) l
  | Signal _ => l
  end.
Definition open (evs : list event) : list (nat * request) := fold_left observe evs [].
Definition events (rs : list (result * list event)) : list event := concat (map snd rs).

(** same topic, QoS and options *)
Definition same (r r' : request) : Prop := rtopic r = rtopic r' /\ rqos r = rqos r' /\ ropts r = ropts r'.

(** operations *)
Definition never (p : op -> bool) (h : list op) : Prop := forall o, In o h -> p o = false.
Definition takes_handle (o : op) : bool := match o with GetSub => true | _ => false end.
Definition destroys (o : op) : bool := match o with Destroy => true | _ => false end.
(** pointers to subscription [k] the user obtained and has not given up *)
Definition obtained (k : nat) (rs : list (result * list event)) : nat :=
  length (filter (fun x => match fst x with Handle (Some j) => Nat.eqb j k | _ => false end) rs).
Definition given_up (k : nat) (h : list op) : nat :=
  length (filter (fun o => match o with DropSub j => Nat.eqb j k | _ => false end) h).
(** a call of subscribe with a shared pointer, options and a topic; any other one *)
Definition by_shared (o : op) : bool :=
  match o with Subscribe _ t (Shared4 _ _) | Subscribe _ t (RmwShared4 _ _) => negb (String.eqb t "") | _ => false end.
Definition shared_without_topic (o : op) : bool :=
  match o with Subscribe _ t (Shared4 _ _) | Subscribe _ t (RmwShared4 _ _) => String.eqb t "" | _ => false end.
Definition subscribes (o : op) : bool := match o with Subscribe _ _ _ => true | _ => false end.
End Spec.
