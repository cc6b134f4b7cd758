(** Several threads call getMessage (message_event.hpp:160-163, 205-222) of one MessageEvent object, which is const in
    C++ but writes the mutable member message_copy_.  Accesses to memory are sequentially consistent steps (in C++ a
    data race is undefined behaviour; see [racing] in the specification).  The factory makes a new object and copying
    succeeds; no other code writes to messages meanwhile. *)
From Coq Require Import List Arith Bool.
From Verif Require Import Base.
Import ListNotations.

Section EventThr.
Context {V : Type}.
Variable const : bool.                (* MessageEvent<M const> or MessageEvent<M> *)
Variable need : bool.                 (* nonconst_need_copy_ *)
Variable msg : nat.                   (* message_ *)
Variable d : V.                       (* the content of a new message object *)

(** Where a thread is in copyMessageIfNecessary:
    [Idle]: not in it;  [Test]: before if (message_copy_), 212;  [Give]: before return message_copy_, 213 or 221;
    [Make]: before create_(), 217;  [Store a]: before the assignment of message_copy_, 218;  [Fill]: before
    *message_copy_ = *message_, 219 *)
Inductive pc := Idle | Test | Give | Make | Store (a : nat) | Fill.
(** A thread: where it is, how many calls are left, what the calls returned and its content at that time *)
Record thread := mkThread { at_ : pc; left : nat; got : list (nat * V) }.
(** Message objects, message_copy_, the threads *)
Record state := mkState { mem : list V; copy : option nat; threads : list thread }.

(** The thread returns the pointer [p] *)
Definition give (h : list V) (th : thread) (p : nat) : thread :=
  mkThread Idle (left th) (match nth_error h p with Some v => got th ++ [(p, v)] | None => got th end).
(** One step of thread [t] *)
Definition step (s : state) (t : nat) : state :=
  match nth_error (threads s) t with
  | None => s
  | Some th =>
      let goto p := upd t (mkThread p (left th) (got th)) (threads s) in
      match at_ th with
      | Idle => match left th with
                | O => s
                | S n => if const || negb need                                      (* 208-210 *)
                         then mkState (mem s) (copy s) (upd t (give (mem s) (mkThread Idle n (got th)) msg) (threads s))
                         else mkState (mem s) (copy s) (upd t (mkThread Test n (got th)) (threads s))
                end
      | Test => mkState (mem s) (copy s) (goto (match copy s with Some _ => Give | None => Make end))
      | Give => match copy s with
                | Some a => mkState (mem s) (copy s) (upd t (give (mem s) th a) (threads s))
                | None => s                                                          (* not reached *)
                end
      | Make => mkState (mem s ++ [d]) (copy s) (goto (Store (length (mem s))))
      | Store a => mkState (mem s) (Some a) (goto Fill)
      | Fill => match copy s, nth_error (mem s) msg with
                | Some a, Some v => mkState (upd a v (mem s)) (copy s) (goto Give)
                | _, _ => s                                                          (* not reached *)
                end
      end
  end.
(** A schedule *)
Fixpoint exec (s : state) (sched : list nat) : state := match sched with [] => s | t :: r => exec (step s t) r end.
(** Threads with these numbers of calls, the message has content [v] *)
Definition start (h : list V) (calls : list nat) : state := mkState h None (map (fun n => mkThread Idle n []) calls).
End EventThr.
Arguments state : clear implicits.
Arguments thread : clear implicits.
