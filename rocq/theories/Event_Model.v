(** Model of include/message_filters/message_event.hpp (class MessageEvent),
    parameter_adapter.hpp (class ParameterAdapter) and of the way signal1.hpp, signal9.hpp
    and pass_through.hpp hand events to callbacks, with messages as heap objects.

    The heap is the list of message contents by address; objects are never freed (a
    shared_ptr keeps them alive).  A message pointer is assumed non-null: dereferencing
    anything else is [Err UB].  create_ is the default message creator and copying a message
    cannot fail. *)
From Coq Require Import List Arith Bool.
From Verif Require Import Base.
Import ListNotations.

Section Event.
Context {V T : Type}.                     (* message contents, receipt times *)
Definition heap := list V.
(** Dereferencing a message pointer *)
Definition read (h : heap) (a : nat) : res V :=
  match nth_error h a with Some v => Ok v | None => Err UB end.
(** Assigning to a message *)
Definition write (h : heap) (a : nat) (v : V) : heap := upd a v h.

(** message_event.hpp:231-237: message_, message_copy_, receipt_time_,
    nonconst_need_copy_; [const] tells MessageEvent<M const> from MessageEvent<M> *)
Record event := mkEvent { const : bool; msg : nat; copied : option nat; receipt : T; need : bool }.

(** message_event.hpp:205-222 (copyMessageIfNecessary) and 160-163 (getMessage): the pointer
    returned; the private copy is made once and kept *)
Definition get_message (h : heap) (e : event) : res (heap * event * nat) :=
  if const e || negb (need e) then Ok (h, e, msg e)
  else match copied e with
       | Some a => Ok (h, e, a)
       | None =>
           do v <- read h (msg e);
           Ok (h ++ [v], mkEvent (const e) (msg e) (Some (length h)) (receipt e) (need e), length h)
       end.

(** message_event.hpp:137-153 (operator=, both overloads) and 77-85 (copy constructors): the
    source of a MessageEvent<M> is asked for its message, which may make it copy.  Returns
    the heap, the source and the new event, of constness [c]. *)
Definition copy_event (h : heap) (e : event) (c : bool) : res (heap * event * event) :=
  do '(h', e', a) <- get_message h e;
  Ok (h', e', mkEvent c a None (receipt e) (need e)).
(** message_event.hpp:87-97 (constructors with nonconst_need_copy) *)
Definition copy_event_with (h : heap) (e : event) (c nc : bool) : res (heap * event * event) :=
  do '(h', e', x) <- copy_event h e c;
  Ok (h', e', mkEvent (const x) (msg x) (copied x) (receipt x) nc).

(** ** Parameter forms *)
(** parameter_adapter.hpp:57-67: the forms of callback parameters; [EventConstCopied] is a
    callback taking const MessageEvent<M const> & that copies it into a MessageEvent<M>. *)
Inductive form :=
| ByValue | ConstRef | ConstSharedRef | ConstShared | MutSharedRef | MutShared
| EventConst | EventMut | EventConstCopied.
(** What the callback can do with it *)
Inductive access := Private (v : V) | ReadOnly (a : nat) | Mutable (a : nat).

(** parameter_adapter.hpp:69-179 (getParameter of every specialisation, then the message
    obtained from an event parameter) *)
Definition param (h : heap) (e : event) (fm : form) : res (heap * access) :=
  match fm with
  | ByValue => do v <- read h (msg e); Ok (h, Private v)
  | ConstRef | ConstSharedRef | ConstShared | EventConst => Ok (h, ReadOnly (msg e))
  | MutSharedRef | MutShared | EventMut | EventConstCopied =>
      do '(h1, _, x) <- copy_event h e false;
      do '(h2, _, a) <- get_message h1 x;
      Ok (h2, Mutable a)
  end.

(** A callback: its parameter form and what it writes, given what it sees. *)
Record callback := mkCallback { fm : form; writes : V -> V }.
(** What a callback saw and was given. *)
Record obs := mkObs { seen : V; acc : access }.

(** The content a callback reads through its parameter *)
Definition see (h : heap) (a : access) : res V :=
  match a with Private v => Ok v | ReadOnly a | Mutable a => read h a end.
(** The effect of a callback writing through its parameter; a copy passed by value is its own *)
Definition put (h : heap) (a : access) (v : V) : heap :=
  match a with Mutable a => write h a v | _ => h end.

(** signal1.hpp:67-71 (CallbackHelper1T::call): build the parameter, call the function *)
Definition call_callback (h : heap) (e : event) (c : callback) : res (heap * obs) :=
  do '(h1, a) <- param h e (fm c);
  do v <- see h1 a;
  Ok (put h1 a (writes c v), mkObs v a).

(** What is connected to a filter: a user callback, or a filter passing events on
    (pass_through.hpp:72-87, and every filter that calls signalMessage with the event
    received) with its own callbacks. *)
Inductive node := User (c : callback) | Filter (cbs : list node).

(** signal1.hpp:67-71 (CallbackHelper1T::call): my_event *)
Definition flagged (force : bool) (e : event) : event :=
  mkEvent true (msg e) None (receipt e) (force || need e).

(** signal1.hpp:104-114 (call): the callbacks in order, forcing copies if there are several *)
Fixpoint call_node (h : heap) (e : event) (x : node) {struct x} : res (heap * list obs) :=
  match x with
  | User c => do '(h', o) <- call_callback h e c; Ok (h', [o])
  | Filter cbs =>
      (fix go (h : heap) (l : list node) : res (heap * list obs) :=
         match l with
         | [] => Ok (h, [])
         | y :: t =>
             do '(h1, o1) <- call_node h (flagged (1 <? length cbs) e) y;
             do '(h2, o2) <- go h1 t;
             Ok (h2, o1 ++ o2)
         end) h cbs
  end.
(** signalMessage(event) of a filter with the given callbacks *)
Definition signal (h : heap) (e : event) (cbs : list node) : res (heap * list obs) :=
  call_node h e (Filter cbs).

(** ** Signal9 *)
(** A synchronizer callback: one parameter form and one write per message. *)
Record callback9 := mkCallback9 { fms : list form; writes9 : nat -> V -> V }.

(** signal9.hpp:69-76: the parameter of each of the messages *)
Fixpoint params (h : heap) (es : list event) (fs : list form) : res (heap * list access) :=
  match es, fs with
  | e :: es', fm :: fs' =>
      do '(h1, a) <- param h e fm;
      do '(h2, l) <- params h1 es' fs';
      Ok (h2, a :: l)
  | _, _ => Ok (h, [])
  end.
(** The contents read through the parameters *)
Fixpoint see_all (h : heap) (l : list access) : res (list V) :=
  match l with
  | [] => Ok []
  | a :: t => do v <- see h a; do vs <- see_all h t; Ok (v :: vs)
  end.
(** The effect of a callback writing through its parameters *)
Fixpoint put_all (k : nat) (w : nat -> V -> V) (h : heap) (l : list access) (vs : list V) : heap :=
  match l, vs with
  | a :: t, v :: vt => put_all (S k) w (put h a (w k v)) t vt
  | _, _ => h
  end.

(** signal9.hpp:69-76 (CallbackHelper9T::call): my_es is built with [force] but the
    parameters are taken from es *)
Definition call_callback9 (force : bool) (h : heap) (es : list event) (c : callback9) :
  res (heap * (list V * list access)) :=
  let my_es := map (flagged force) es in         (* unused, as in the code *)
  do '(h1, l) <- params h es (fms c);
  do vs <- see_all h1 l;
  Ok (put_all 0 (writes9 c) h1 l vs, (vs, l)).

(** signal9.hpp:139-149 (call) *)
Fixpoint call9 (force : bool) (h : heap) (es : list event) (cbs : list callback9) :
  res (heap * list (list V * list access)) :=
  match cbs with
  | [] => Ok (h, [])
  | c :: t =>
      do '(h1, o) <- call_callback9 force h es c;
      do '(h2, os) <- call9 force h1 es t;
      Ok (h2, o :: os)
  end.
(** signal9.hpp:139-149 (call): nonconst_force_copy is callbacks_.size() > 1 *)
Definition signal9 (h : heap) (es : list event) (cbs : list callback9) :=
  call9 (1 <? length cbs) h es cbs.

(** ** Programs using events *)
(** Events by number.  [New]: MessageEvent(message, receipt_time, need) of a message with the
    given content; [Copy k c]: a copy of event [k] as MessageEvent<M const> or MessageEvent<M>;
    [CopyWith k c nc]; [Get k]: getMessage; [GetConst k]: getConstMessage; [Write k v]: getMessage
    of a MessageEvent<M> and assignment to the message. *)
Inductive op := New (c : bool) (v : V) (t : T) (nc : bool) | Copy (k : nat) (c : bool)
  | CopyWith (k : nat) (c nc : bool) | Get (k : nat) | GetConst (k : nat) | Write (k : nat) (v : V).
(** What an operation returns: the number of the event created; the address and content of a message *)
Inductive result := Created (k : nat) | Got (a : nat) (v : V) | Wrote.
(** The message objects and the events created so far *)
Record state := mkState { mem : heap; evs : list event }.
(** Nothing created yet *)
Definition init : state := mkState [] [].

(** Event number [k] *)
Definition nth_event (s : state) (k : nat) : res event :=
  match nth_error (evs s) k with Some e => Ok e | None => Err UB end.

(** One operation *)
Definition step (s : state) (o : op) : res (state * result) :=
  match o with
  | New c v t nc =>
      Ok (mkState (mem s ++ [v]) (evs s ++ [mkEvent c (length (mem s)) None t nc]), Created (length (evs s)))
  | Copy k c =>
      do e <- nth_event s k;
      do '(h, e', x) <- copy_event (mem s) e c;
      Ok (mkState h (upd k e' (evs s) ++ [x]), Created (length (evs s)))
  | CopyWith k c nc =>
      do e <- nth_event s k;
      do '(h, e', x) <- copy_event_with (mem s) e c nc;
      Ok (mkState h (upd k e' (evs s) ++ [x]), Created (length (evs s)))
  | Get k =>
      do e <- nth_event s k;
      do '(h, e', a) <- get_message (mem s) e;
      do v <- read h a;
      Ok (mkState h (upd k e' (evs s)), Got a v)
  | GetConst k =>
      do e <- nth_event s k;
      do v <- read (mem s) (msg e);
      Ok (s, Got (msg e) v)
  | Write k v =>
      do e <- nth_event s k;
      if const e then Err UB                       (* does not compile *)
      else
        do '(h, e', a) <- get_message (mem s) e;
        Ok (mkState (write h a v) (upd k e' (evs s)), Wrote)
  end.

(** A sequence of operations *)
Fixpoint run (s : state) (h : list op) : res (state * list result) :=
  match h with
  | [] => Ok (s, [])
  | o :: h' =>
      do '(s1, r) <- step s o;
      do '(s2, rs) <- run s1 h';
      Ok (s2, r :: rs)
  end.
End Event.
Arguments heap : clear implicits.
Arguments event : clear implicits.
Arguments callback : clear implicits.
Arguments callback9 : clear implicits.
Arguments node : clear implicits.
Arguments obs : clear implicits.
Arguments access : clear implicits.
Arguments op : clear implicits.
Arguments result : clear implicits.
Arguments state : clear implicits.
