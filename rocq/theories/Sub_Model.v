(** Model of include/message_filters/subscriber.hpp: a Subscriber together with the rclcpp
    subscriptions it creates and the nodes it uses.

    A subscription is an object created by a node and shared by pointers (rclcpp): it exists, and
    the executor may hand it messages, until the last pointer to it is gone.  Pointers are held by
    the Subscriber (sub_) and by users of getSubscriber().  Nodes are numbers; a node exists until
    the user releases it, and beyond if the Subscriber holds a shared pointer to it.  Using a node
    or Subscriber that no longer exists is [Err UB].  create_subscription may throw (invalid topic
    name, options refused): [accepts] says for what it succeeds.  An exception reaches the caller
    (result [Threw]) with the effects up to that point kept.
    Not modelled: type adapters (message_type_t), and the contents of QoS and options. *)
From Coq Require Import String List Arith Bool.
From Verif Require Import Base.
Import ListNotations.

Section Sub.
Context {Q R O M : Type}.            (* rclcpp::QoS, rmw_qos_profile_t, SubscriptionOptions, messages *)
Variable from_rmw : R -> Q.          (* rclcpp::QoS(rclcpp::QoSInitialization::from_rmw(qos)) *)
Variable opts0 : O.                  (* rclcpp::SubscriptionOptions() *)
Variable qos0 : Q.                   (* subscriber.hpp:596 *)
Variable accepts : string -> Q -> O -> bool.

(** What a subscription was created with *)
Record request := mkRequest { rnode : nat; rtopic : string; rqos : Q; ropts : O }.

(** The overloads of subscribe with a topic, with their arguments:
    [Raw4], [Shared4]: subscriber.hpp:419-440, 398-407 (node pointer; shared pointer);
    [Raw3], [Shared3]: 381-386, 365-370 (without options);
    [RmwRaw4], [RmwShared4]: 512-533, 490-499; [RmwRaw3], [RmwShared3]: 470-477, 451-458
    (the profile has a default value). *)
Inductive form :=
| Raw4 (q : Q) (o : O) | Shared4 (q : Q) (o : O) | Raw3 (q : Q) | Shared3 (q : Q)
| RmwRaw4 (r : R) (o : O) | RmwShared4 (r : R) (o : O) | RmwRaw3 (r : R) | RmwShared3 (r : R).

(** subscriber.hpp:590-597: the members.  [gone]: the Subscriber is destroyed; [made]: the
    subscriptions created so far, in order, their position being their identity; [held]: pointers
    users obtained from getSubscriber; [released]: nodes given up by the user *)
Record state := mkState {
  sub_ : option nat; node_shared : option nat; node_raw : option nat; topic_ : string; qos_ : Q; options_ : O;
  gone : bool; made : list request; held : list nat; released : list nat }.
(** A default-constructed Subscriber (subscriber.hpp:349) *)
Definition init : state := mkState None None None "" qos0 opts0 false [] [] [].

(** No counterpart in the code: replacing members ([set_sub] to [set_gone]) *)
Definition set_sub (s : state) x := mkState x (node_shared s) (node_raw s) (topic_ s) (qos_ s) (options_ s) (gone s) (made s) (held s) (released s).
(** node_shared_ and node_raw_ *)
Definition set_nodes (s : state) sh rw := mkState (sub_ s) sh rw (topic_ s) (qos_ s) (options_ s) (gone s) (made s) (held s) (released s).
(** topic_, qos_ and options_ *)
Definition set_request (s : state) t q o := mkState (sub_ s) (node_shared s) (node_raw s) t q o (gone s) (made s) (held s) (released s).
(** the subscriptions created *)
Definition set_made (s : state) l := mkState (sub_ s) (node_shared s) (node_raw s) (topic_ s) (qos_ s) (options_ s) (gone s) l (held s) (released s).
(** the pointers held by users *)
Definition set_held (s : state) l := mkState (sub_ s) (node_shared s) (node_raw s) (topic_ s) (qos_ s) (options_ s) (gone s) (made s) l (released s).
(** the nodes given up *)
Definition set_released (s : state) l := mkState (sub_ s) (node_shared s) (node_raw s) (topic_ s) (qos_ s) (options_ s) (gone s) (made s) (held s) l.
(** the Subscriber is destroyed *)
Definition set_gone (s : state) := mkState (sub_ s) (node_shared s) (node_raw s) (topic_ s) (qos_ s) (options_ s) true (made s) (held s) (released s).

(** No counterpart in the code: membership *)
Definition mem (k : nat) (l : list nat) : bool := existsb (Nat.eqb k) l.
(** No counterpart in the code: a pointer to [k] *)
Definition is_some_eq (x : option nat) (k : nat) : bool := match x with Some j => Nat.eqb j k | None => false end.
(** subscription [k] exists *)
Definition exists_sub (s : state) (k : nat) : bool := is_some_eq (sub_ s) k || mem k (held s).
(** node [n] exists *)
Definition exists_node (s : state) (n : nat) : bool := negb (mem n (released s)) || is_some_eq (node_shared s) n.

(** What happens to subscriptions and messages: [Opened k r]: subscription [k] created;
    [Closed k]: it ceases to exist; [Signal m]: the Subscriber passes on message [m] *)
Inductive event := Opened (k : nat) (r : request) | Closed (k : nat) | Signal (m : M).
(** How a call ends: normally, with the topic, with the subscription pointer, with an exception *)
Inductive result := Done | Threw | Topic (t : string) | Handle (k : option nat).

(** subscriber.hpp:552-555 (unsubscribe): sub_.reset() *)
Definition unsubscribe (s : state) : state * list event :=
  match sub_ s with
  | None => (s, [])
  | Some k => (set_sub s None, if mem k (held s) then [] else [Closed k])
  end.

(** subscriber.hpp:419-440 (subscribe with a node pointer); 512-533 is the same after
    converting the profile *)
Definition subscribe_raw (s : state) (n : nat) (t : string) (q : Q) (o : O) : res (state * result * list event) :=
  let '(s1, ev) := unsubscribe s in
  if String.eqb t "" then Ok (s1, Done, ev)
  else
    let s2 := set_request s1 t q o in
    if exists_node s2 n then
      if accepts t q o then
        let k := length (made s2) in
        let r := mkRequest n t q o in
        let s3 := set_sub (set_made s2 (made s2 ++ [r])) (Some k) in
        Ok (set_nodes s3 (node_shared s3) (Some n), Done, ev ++ [Opened k r])
      else Ok (s2, Threw, ev)
    else Err UB.
(** subscriber.hpp:398-407 and 490-499 (with a shared pointer to the node).  The pointer held by
    the caller's argument keeps the node while the function runs. *)
Definition subscribe_shared (s : state) (n : nat) (t : string) (q : Q) (o : O) : res (state * result * list event) :=
  do '(s1, r, ev) <- subscribe_raw s n t q o;
  match r with
  | Threw => Ok (s1, Threw, ev)
  | _ => Ok (set_nodes s1 (Some n) None, Done, ev)
  end.
(** the overloads *)
Definition subscribe (s : state) (n : nat) (t : string) (f : form) : res (state * result * list event) :=
  match f with
  | Raw4 q o => subscribe_raw s n t q o
  | Shared4 q o => subscribe_shared s n t q o
  | Raw3 q | Shared3 q => subscribe_raw s n t q opts0
  | RmwRaw4 r o => subscribe_raw s n t (from_rmw r) o
  | RmwShared4 r o => subscribe_shared s n t (from_rmw r) o
  | RmwRaw3 r | RmwShared3 r => subscribe_raw s n t (from_rmw r) opts0
  end.
(** The constructors (subscriber.hpp:249-344) make an empty Subscriber and subscribe; all of
    them, also those taking a shared pointer and options, use the node's address:
    273-280 and 327-334 call subscribe(node.get(), ...) *)
Definition construct (n : nat) (t : string) (f : form) : res (state * result * list event) :=
  match f with
  | Shared4 q o => subscribe_raw init n t q o
  | RmwShared4 r o => subscribe_raw init n t (from_rmw r) o
  | _ => subscribe init n t f
  end.

(** subscriber.hpp:538-547 (subscribe()) *)
Definition resubscribe (s : state) : res (state * result * list event) :=
  if String.eqb (topic_ s) "" then Ok (s, Done, [])
  else match node_raw s with
       | Some n => subscribe_raw s n (topic_ s) (qos_ s) (options_ s)
       | None => match node_shared s with
                 | Some n => subscribe_shared s n (topic_ s) (qos_ s) (options_ s)
                 | None => Ok (s, Done, [])
                 end
       end.

(** remove one occurrence *)
Fixpoint drop1 (k : nat) (l : list nat) : list nat :=
  match l with [] => [] | x :: t => if Nat.eqb x k then t else x :: drop1 k t end.

(** [GetSub]: keep the pointer returned by getSubscriber (565); [DropSub k]: give one up;
    [ReleaseNode n]: the user gives up node [n]; [Incoming k m]: the executor hands message [m]
    to subscription [k]; [Destroy]: the Subscriber's destructor (351-354). *)
Inductive op :=
| Subscribe (n : nat) (t : string) (f : form) | Resubscribe | Unsubscribe | GetTopic
| GetSub | DropSub (k : nat) | ReleaseNode (n : nat) | Incoming (k : nat) (m : M) | Destroy.

(** One call or event *)
Definition step (s : state) (o : op) : res (state * result * list event) :=
  match o with
  | Subscribe n t f => if gone s || mem n (released s) then Err UB else subscribe s n t f
  | Resubscribe => if gone s then Err UB else resubscribe s
  | Unsubscribe => if gone s then Err UB else let '(s1, ev) := unsubscribe s in Ok (s1, Done, ev)
  | GetTopic => if gone s then Err UB else Ok (s, Topic (topic_ s), [])               (* 557-560 *)
  | GetSub => if gone s then Err UB
      else Ok (match sub_ s with Some k => set_held s (k :: held s) | None => s end, Handle (sub_ s), [])
  | DropSub k =>
      if mem k (held s) then
        let s1 := set_held s (drop1 k (held s)) in Ok (s1, Done, if exists_sub s1 k then [] else [Closed k])
      else Err UB
  | ReleaseNode n => if mem n (released s) then Err UB else Ok (set_released s (n :: released s), Done, [])
  | Incoming k m =>
      (* 434-437, 585-588 (cb): the callback uses the Subscriber *)
      if exists_sub s k then if gone s then Err UB else Ok (s, Done, [Signal m]) else Ok (s, Done, [])
  | Destroy => if gone s then Err UB
      else let '(s1, ev) := unsubscribe s in Ok (set_gone (set_nodes s1 None (node_raw s1)), Done, ev)
  end.
(** A sequence of calls and events *)
Fixpoint run (s : state) (h : list op) : res (state * list (result * list event)) :=
  match h with
  | [] => Ok (s, [])
  | o :: h' => do '(s1, r, ev) <- step s o; do '(s2, rs) <- run s1 h'; Ok (s2, (r, ev) :: rs)
  end.
End Sub.
Arguments request : clear implicits.
Arguments form : clear implicits.
Arguments state : clear implicits.
Arguments event : clear implicits.
Arguments op : clear implicits.
