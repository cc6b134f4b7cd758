(** Model of the drop signal of ExactTime (sync_policies/exact_time.hpp:104-126, 175-192) calling
    drop callbacks: the messages of a dropped set that have not been received are
    default-constructed events (message_event.hpp:72-74).

    The forms of parameters and the accesses to messages that are there are those of
    Event_Model.v, with the same simplifications. *)
From Coq Require Import List Arith Bool.
From Verif Require Import Base Event_Model.
Import ListNotations.

Section Drop.
Context {V T : Type}.
(** Whether assert() is compiled in (NDEBUG not defined) *)
Variable asserts : bool.

(** What a callback is given for one message: access to it, or a null pointer (the event of a
    message that is missing gives a null pointer, too) *)
Inductive dparam := Given (a : access V) | Null.

(** parameter_adapter.hpp:69-179 (getParameter) for an event of the tuple; [None] is the event of
    message_event.hpp:72-74: message_ null, nonconst_need_copy_ set, create_ empty.
    By value and by reference the null pointer is dereferenced (78, 124); for the non-const
    forms the event is copied (message_event.hpp:146-153, which copies the empty create_) and
    asked for its message: assert(create_) and then the call of the empty create_, which throws
    std::bad_function_call (message_event.hpp:216-217).  The callbacks with event parameters are
    those of Event_Model.v: they ask the event for its message. *)
Definition dparam_of (h : heap V) (o : option (event T)) (f : form) : res (heap V * dparam) :=
  match o with
  | Some e => do '(h', a) <- param h e f; Ok (h', Given a)
  | None =>
      match f with
      | ByValue | ConstRef => Err UB
      | ConstSharedRef | ConstShared | EventConst => Ok (h, Null)
      | MutSharedRef | MutShared | EventMut | EventConstCopied => Err (if asserts then AssertFailed else Thrown)
      end
  end.

(** signal9.hpp:69-76 (CallbackHelper9T::call): the parameters, here from left to right (the order
    is unspecified) *)
Fixpoint dparams (h : heap V) (t : list (option (event T))) (fs : list form) : res (heap V * list dparam) :=
  match t, fs with
  | o :: t', f :: fs' =>
      do '(h1, a) <- dparam_of h o f;
      do '(h2, l) <- dparams h1 t' fs';
      Ok (h2, a :: l)
  | _, _ => Ok (h, [])
  end.

(** signal9.hpp:69-76: one drop callback, given its forms; it reads and then writes what it has
    been given, and uses null pointers for nothing but testing them *)
Fixpoint dsee (h : heap V) (l : list dparam) : res (list (option V)) :=
  match l with
  | [] => Ok []
  | Given a :: t => do v <- see h a; do vs <- dsee h t; Ok (Some v :: vs)
  | Null :: t => do vs <- dsee h t; Ok (None :: vs)
  end.
(** The effect of the callback writing through its parameters *)
Fixpoint dput (k : nat) (w : nat -> V -> V) (h : heap V) (l : list dparam) (vs : list (option V)) : heap V :=
  match l, vs with
  | Given a :: t, Some v :: vt => dput (S k) w (put h a (w k v)) t vt
  | _ :: t, _ :: vt => dput (S k) w h t vt
  | _, _ => h
  end.
(** signal9.hpp:69-76 (CallbackHelper9T::call) *)
Definition dcall (h : heap V) (t : list (option (event T))) (c : callback9 V) : res (heap V * list (option V)) :=
  do '(h1, l) <- dparams h t (fms c);
  do vs <- dsee h1 l;
  Ok (dput 0 (writes9 c) h1 l vs, vs).

(** exact_time.hpp:175-178 (call_drop_signal) and signal9.hpp:139-149 (call): the drop callbacks in
    order; what each has seen *)
Fixpoint call_drop_signal (h : heap V) (t : list (option (event T))) (cbs : list (callback9 V)) :
  res (heap V * list (list (option V))) :=
  match cbs with
  | [] => Ok (h, [])
  | c :: cs =>
      do '(h1, o) <- dcall h t c;
      do '(h2, os) <- call_drop_signal h1 t cs;
      Ok (h2, o :: os)
  end.
End Drop.
Arguments dparam : clear implicits.
