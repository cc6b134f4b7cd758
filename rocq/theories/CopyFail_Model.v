(** Model of include/message_filters/message_event.hpp (class MessageEvent) where messages may be null, the
    message factory is arbitrary and copying a message may throw; and of the way signal1.hpp and
    parameter_adapter.hpp hand such events to callbacks.

    Contents of message objects by address; null is [None].  Receipt times do not matter here and are left out
    (see [Event_Model]).  What the factory and the copy assignment of the message do in a call is an
    [outcome] given with the call. *)
From Coq Require Import List Arith Bool.
From Verif Require Import Base Event_Model.
Import ListNotations.

Section CopyFail.
Context {V : Type}.

(** What create_() does: a new object with content [d], an exception, null, or a pointer to an existing object *)
Inductive creation := Fresh (d : V) | CreateThrows | CreateNull | Existing (a : nat).
(** [assigned]: None: the assignment of the message succeeds; Some p: it throws and leaves [p] in the target *)
Record outcome := mkOutcome { created : creation; assigned : option V }.

(** message_event.hpp:231-237: message_, message_copy_, nonconst_need_copy_, whether create_ is set *)
Record fevent := mkF { fconst : bool; fmsg : option nat; fcopied : option nat; fneed : bool; factory : bool }.

(** message_event.hpp:205-222 (copyMessageIfNecessary), 160-163 (getMessage): message_copy_ is set before the
    message is copied into it.  The event is as given also if the call throws.  An empty create_ fails the
    assertion (without assertions std::bad_function_call is thrown). *)
Definition get (h : list V) (e : fevent) (oc : outcome) : list V * fevent * res (option nat) :=
  if fconst e || negb (fneed e) then (h, e, Ok (fmsg e))
  else match fcopied e with
       | Some a => (h, e, Ok (Some a))
       | None =>
           if negb (factory e) then (h, e, Err AssertFailed)
           else
             let set a := mkF (fconst e) (fmsg e) (Some a) (fneed e) (factory e) in
             let assign h a :=
               match fmsg e with
               | None => (h, set a, Err UB)
               | Some m => match nth_error h m with
                           | None => (h, set a, Err UB)
                           | Some v => match assigned oc with
                                       | None => (upd a v h, set a, Ok (Some a))
                                       | Some p => (upd a p h, set a, Err Thrown)
                                       end
                           end
               end in
             match created oc with
             | CreateThrows => (h, e, Err Thrown)
             | CreateNull => (h, e, Err UB)
             | Fresh d => assign (h ++ [d]) (length h)
             | Existing a => assign h a
             end
       end.

(** Events by number.
    [NewPtr c v]: MessageEvent(message) (113-123) of a new message;  [NewNull c]: of a null pointer;
    [Default c]: MessageEvent() (73-75);  [NewFull c v nc cr]: MessageEvent(message, time, need, create) (125-130);
    [FromVoid k c cr]: from a MessageEvent<void const> made of event [k] (99-105, here [k] is a const event);
    [Copy k c]: copy construction (77-85);  [CopyWith k c nc] (87-97);  [Assign j k]: operator= (137-153);
    [Get k]: getMessage;  [GetConst k]: getConstMessage *)
Inductive fop :=
| NewPtr (c : bool) (v : V) | NewNull (c : bool) | Default (c : bool) | NewFull (c : bool) (v : option V) (nc cr : bool)
| FromVoid (k : nat) (c cr : bool) | Copy (k : nat) (c : bool) | CopyWith (k : nat) (c nc : bool) | Assign (j k : nat)
| Get (k : nat) | GetConst (k : nat).
(** [Made]: an event was created or assigned; [Got None]: a null pointer; [Got (Some v)]: a message with this
    content; [Failed] *)
Inductive fres := Made | Got (v : option V) | Failed (x : err).
Record fstate := mkFS { fmem : list V; fevs : list fevent }.
Definition finit : fstate := mkFS [] [].

(** The content behind a pointer *)
Definition content (h : list V) (p : option nat) : fres :=
  match p with
  | None => Got None
  | Some a => match nth_error h a with Some v => Got (Some v) | None => Failed UB end
  end.
Definition add_event (s : fstate) (e : fevent) : fstate := mkFS (fmem s) (fevs s ++ [e]).

(** One call *)
Definition fstep (s : fstate) (o : fop) (oc : outcome) : fstate * fres :=
  let with_event k f := match nth_error (fevs s) k with None => (s, Failed UB) | Some e => f e end in
  match o with
  | NewPtr c v => (mkFS (fmem s ++ [v]) (fevs s ++ [mkF c (Some (length (fmem s))) None true true]), Made)
  | NewNull c => (add_event s (mkF c None None true true), Made)
  | Default c => (add_event s (mkF c None None true false), Made)
  | NewFull c (Some v) nc cr => (mkFS (fmem s ++ [v]) (fevs s ++ [mkF c (Some (length (fmem s))) None nc cr]), Made)
  | NewFull c None nc cr => (add_event s (mkF c None None nc cr), Made)
  | FromVoid k c cr => with_event k (fun e => (add_event s (mkF c (fmsg e) None (fneed e) cr), Made))
  | Copy k c => with_event k (fun e =>
      let '(h, e', r) := get (fmem s) e oc in
      match r with
      | Ok p => (mkFS h (upd k e' (fevs s) ++ [mkF c p None (fneed e) (factory e)]), Made)
      | Err x => (mkFS h (upd k e' (fevs s)), Failed x)
      end)
  | CopyWith k c nc => with_event k (fun e =>
      let '(h, e', r) := get (fmem s) e oc in
      match r with
      | Ok p => (mkFS h (upd k e' (fevs s) ++ [mkF c p None nc (factory e)]), Made)
      | Err x => (mkFS h (upd k e' (fevs s)), Failed x)
      end)
  | Assign j k => with_event j (fun old => with_event k (fun e =>
      let '(h, e', r) := get (fmem s) e oc in
      match r with
      | Ok p => (mkFS h (upd j (mkF (fconst old) p None (fneed e) (factory e)) (upd k e' (fevs s))), Made)
      | Err x => (mkFS h (upd k e' (fevs s)), Failed x)
      end))
  | Get k => with_event k (fun e =>
      let '(h, e', r) := get (fmem s) e oc in
      (mkFS h (upd k e' (fevs s)), match r with Ok p => content h p | Err x => Failed x end))
  | GetConst k => with_event k (fun e => (s, content (fmem s) (fmsg e)))
  end.

(** After an exception the program goes on, after undefined behaviour or a failed assertion it does not *)
Definition fatal (x : fres) : bool := match x with Failed Thrown => false | Failed _ => true | _ => false end.
(** A sequence of calls: the final state and the results *)
Fixpoint frun (s : fstate) (h : list (fop * outcome)) : fstate * list fres :=
  match h with
  | [] => (s, [])
  | (o, oc) :: h' => let (s1, x) := fstep s o oc in
                     if fatal x then (s1, [x]) else let (s2, xs) := frun s1 h' in (s2, x :: xs)
  end.

(** ** Signals *)
(** What is connected to a filter: a callback by its parameter, or a filter that passes the event on *)
Inductive fnode := User (f : form) | Filter (l : list fnode).

(** parameter_adapter.hpp:69-179: the message a callback is given: null or its content.  Dereferencing null is
    undefined behaviour.  A MessageEvent<M> made for the call is gone after it. *)
Definition fparam (h : list V) (e : fevent) (f : form) (oc : outcome) : list V * fres :=
  match f with
  | ByValue | ConstRef => (h, match content h (fmsg e) with Got None => Failed UB | x => x end)
  | ConstSharedRef | ConstShared | EventConst => (h, content h (fmsg e))
  | MutSharedRef | MutShared | EventMut | EventConstCopied =>
      let '(h1, _, r) := get h (mkF false (fmsg e) None (fneed e) (factory e)) oc in
      (h1, match r with Ok p => content h1 p | Err x => Failed x end)
  end.

(** signal1.hpp:67-71, 104-114: the callbacks in order.  The outcomes are used up, one by each callback
    called.  Returns what the callbacks were given, and the exception or error that ended the call.  [None]
    of a missing outcome: all is well, the default content is [d] *)
Definition next (d : V) (ocs : list outcome) : outcome * list outcome :=
  match ocs with [] => (mkOutcome (Fresh d) None, []) | oc :: t => (oc, t) end.
Fixpoint fcall (d : V) (h : list V) (e : fevent) (x : fnode) (ocs : list outcome) {struct x} : list V * list outcome * list (option V) * option err :=
  match x with
  | User f => let (oc, ocs') := next d ocs in
              let (h', r) := fparam h e f oc in
              match r with Got v => (h', ocs', [v], None) | Failed er => (h', ocs', [], Some er) | Made => (h', ocs', [], None) end
  | Filter l =>
      let e' := mkF true (fmsg e) None ((1 <? length l) || fneed e) (factory e) in
      (fix go (h : list V) (ocs : list outcome) (l : list fnode) : list V * list outcome * list (option V) * option err :=
         match l with
         | [] => (h, ocs, [], None)
         | y :: t => let '(h1, ocs1, o1, r1) := fcall d h e' y ocs in
                     match r1 with
                     | Some er => (h1, ocs1, o1, Some er)
                     | None => let '(h2, ocs2, o2, r2) := go h1 ocs1 t in (h2, ocs2, o1 ++ o2, r2)
                     end
         end) h ocs l
  end.
(** signalMessage(event) of a filter with these callbacks: what they were given, in order, and how the call ended *)
Definition fsignal (d : V) (h : list V) (e : fevent) (l : list fnode) (ocs : list outcome) : list (option V) * option err :=
  let '(_, _, os, r) := fcall d h e (Filter l) ocs in (os, r).
End CopyFail.
Arguments creation : clear implicits.
Arguments outcome : clear implicits.
Arguments fop : clear implicits.
Arguments fres : clear implicits.
Arguments fstate : clear implicits.
