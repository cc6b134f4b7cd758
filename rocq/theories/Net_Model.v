(** Model of networks of filters: how filters are connected, chained, destroyed, and how a
    message travels.  include/message_filters/pass_through.hpp, chain.hpp, the connection part
    of cache.hpp, time_sequencer.hpp, synchronizer.hpp, input_aligner.hpp, subscriber.hpp, with
    simple_filter.hpp, signal1.hpp and connection.cpp underneath.

    A filter is a node of a list; node numbers stand for addresses and are never reused.  What
    a filter computes (which messages it forwards) is a function of its state, given for user
    filters and fixed for the library's; the contents of Cache and the synchronization policies
    are in their own models, here a synchronizer or sequencer just absorbs its inputs.  Using a
    destroyed filter is [Err UB].  Programs that do not compile (wrong number of inputs, names of
    private members) are also [Err UB].  Callbacks of the user are observers. *)
From Coq Require Import List Arith Bool.
From Verif Require Import Base.
Import ListNotations.

Section Net.
Context {S M U : Type}.        (* states of user filters, messages, user callbacks *)

(** What a registered callback does: call a user function, the add<i> function of a filter
    (pass_through.hpp:84-87 cb, cache.hpp:335-338 callback, time_sequencer.hpp:185-188 cb,
    synchronizer.hpp:170-174 cb, input_aligner.hpp:339-364 addEvent, chain.hpp:224-227
    incomingCB), or forward through a chain's own signal (chain.hpp:229-232 lastFilterCB) *)
Inductive target := ToUser (u : U) | ToInput (n i : nat) | ToOutput (n : nat).

(** The kinds of filters.  [Source]: subscriber.hpp (connectInput and add do nothing,
    subscriber.hpp:567-582).  [Custom r d k f]: a user filter with [k] inputs, whose connectInput
    disconnects first iff [r] and whose destructor disconnects iff [d]. *)
Inductive class :=
| Source | PassThrough | Chain | Cache | Sequencer | Synchronizer (k : nat)
| Custom (r d : bool) (k : nat) (f : S -> nat -> M -> S * list M).

(** number of inputs *)
Definition arity (c : class) : nat :=
  match c with Source => 1 | PassThrough | Chain | Cache | Sequencer => 1 | Synchronizer k => k | Custom _ _ k _ => k end.
(** connectInput disconnects the previous inputs: pass_through.hpp:64, chain.hpp:192,
    time_sequencer.hpp:131, synchronizer.hpp:112, input_aligner.hpp:123; not cache.hpp:86-91 *)
Definition replaces (c : class) : bool :=
  match c with Source => false | PassThrough | Chain => true | Cache => false | Sequencer | Synchronizer _ => true
  | Custom r _ _ _ => r end.
(** the destructor disconnects the inputs: cache.hpp:93-96, time_sequencer.hpp:140-144,
    synchronizer.hpp:82-85, input_aligner.hpp:111-114; PassThrough and Chain have none *)
Definition detaches (c : class) : bool :=
  match c with Source => true | PassThrough | Chain => false | Cache | Sequencer | Synchronizer _ => true
  | Custom _ d _ _ => d end.
(** the messages signalled by add<i>, with the new state: pass_through.hpp:73-81, cache.hpp:125-159
    (the event is forwarded after being cached), time_sequencer.hpp:146-188 (held for the timer),
    the synchronizers (their outputs are tuples), subscriber.hpp:579-582 (nothing) *)
Definition behave (c : class) (x : S) (i : nat) (m : M) : S * list M :=
  match c with
  | Source | Sequencer | Synchronizer _ | Chain => (x, [])
  | PassThrough | Cache => (x, [m])
  | Custom _ _ _ f => f x i m
  end.
(** who signals on its own: subscribers, the sequencer's timer, user filters *)
Definition emits (c : class) : bool :=
  match c with Source | Sequencer | Custom _ _ _ _ => true | _ => false end.

(** [cbs]: signal1.hpp callbacks_, with the identity of the helper; [ins]: the Connections
    held (incoming_connection_ or input_connections_), as filter and helper; [filters] and
    [last]: chain.hpp filters_ (filter and passthrough) and last_filter_connection_;
    [internal]: the passthroughs made by a chain, not accessible to the user. *)
Record node := mkNode {
  alive : bool; cls : class; st : S; cbs : list (nat * target); next : nat;
  ins : list (option (nat * nat)); filters : list (nat * nat); last : option (nat * nat); internal : bool }.
(** No counterpart in the code: replacing callbacks_ *)
Definition set_cbs (x : node) c n := mkNode (alive x) (cls x) (st x) c n (ins x) (filters x) (last x) (internal x).
(** No counterpart in the code: replacing the state of the filter itself *)
Definition set_st (x : node) s := mkNode (alive x) (cls x) s (cbs x) (next x) (ins x) (filters x) (last x) (internal x).
(** No counterpart in the code: replacing the connections held *)
Definition set_ins (x : node) l := mkNode (alive x) (cls x) (st x) (cbs x) (next x) l (filters x) (last x) (internal x).
(** No counterpart in the code: replacing filters_ and last_filter_connection_ *)
Definition set_chain (x : node) fl la := mkNode (alive x) (cls x) (st x) (cbs x) (next x) (ins x) fl la (internal x).
(** The end of the lifetime of a filter *)
Definition kill (x : node) := mkNode false (cls x) (st x) [] (next x) (ins x) (filters x) (last x) (internal x).
(** A newly constructed filter: no callbacks, not connected *)
Definition fresh (c : class) (s : S) (int : bool) : node := mkNode true c s [] 0 (repeat None (arity c)) [] None int.

(** All filters constructed so far, by number *)
Definition state := list node.
(** Access to a filter: undefined behaviour after its destruction *)
Definition live (s : state) (n : nat) : res node :=
  match nth_error s n with Some x => if alive x then Ok x else Err UB | None => Err UB end.

(** simple_filter.hpp:63-102 (registerCallback), signal1.hpp:84-92 (addCallback) *)
Definition register (s : state) (f : nat) (t : target) : res (state * nat) :=
  do x <- live s f;
  Ok (upd f (set_cbs x (cbs x ++ [(next x, t)]) (Datatypes.S (next x))) s, next x).
(** signal1.hpp:94-102 (removeCallback) *)
Fixpoint erase (k : nat) (l : list (nat * target)) : list (nat * target) :=
  match l with
  | [] => []
  | x :: t => if Nat.eqb (fst x) k then t else x :: erase k t
  end.
(** connection.cpp:39-46 (disconnect); the bound function uses the signal of the filter
    connected to.  A default-constructed Connection does nothing. *)
Definition disconnect (s : state) (c : option (nat * nat)) : res state :=
  match c with
  | None => Ok s
  | Some (f, k) => do x <- live s f; Ok (upd f (set_cbs x (erase k (cbs x)) (next x)) s)
  end.
(** synchronizer.hpp:163-168, input_aligner.hpp:332-337 (disconnectAll), and the single
    connection of the other filters *)
Fixpoint disconnect_all (s : state) (l : list (option (nat * nat))) : res state :=
  match l with
  | [] => Ok s
  | c :: t => do s' <- disconnect s c; disconnect_all s' t
  end.

(** synchronizer.hpp:92-107 (connect, connectInputImpl), input_aligner.hpp:316-330 *)
Fixpoint connect_slots (s : state) (n i : nat) (fs : list nat) : res state :=
  match fs with
  | [] => Ok s
  | f :: t =>
      do '(s1, k) <- register s f (ToInput n i);
      do x <- live s1 n;
      connect_slots (upd n (set_ins x (upd i (Some (f, k)) (ins x))) s1) n (Datatypes.S i) t
  end.
(** connectInput: pass_through.hpp:61-71, chain.hpp:189-196, cache.hpp:85-91,
    time_sequencer.hpp:128-138, synchronizer.hpp:109-116, input_aligner.hpp:120-127,
    subscriber.hpp:570-574 *)
Definition connect_input (s : state) (n : nat) (fs : list nat) : res state :=
  do x <- live s n;
  if arity (cls x) <? length fs then Err UB      (* does not compile *)
  else match cls x with
       | Source => Ok s
       | c => do s1 <- (if replaces c then disconnect_all s (ins x) else Ok s); connect_slots s1 n 0 fs
       end.

(** chain.hpp:146-167 (addFilter); returns the index *)
Definition add_filter (s : state) (c f : nat) (s0 : S) : res (state * nat) :=
  do xc <- live s c;
  match cls xc with
  | Chain =>
      do _ <- live s f;
      let p := length s in
      do s2 <- disconnect (s ++ [fresh PassThrough s0 true]) (last xc);
      do s3 <- connect_input s2 p [f];
      do '(s4, k) <- register s3 p (ToOutput c);
      do x4 <- live s4 c;
      let s5 := upd c (set_chain x4 (filters x4) (Some (p, k))) s4 in
      do s6 <- match rev (filters xc) with [] => Ok s5 | (_, q) :: _ => connect_input s5 f [q] end;
      do x6 <- live s6 c;
      Ok (upd c (set_chain x6 (filters x6 ++ [(f, p)]) (last x6)) s6, length (filters xc))
  | _ => Err UB                                   (* does not compile *)
  end.

(** ** A message on its way *)
(** [Input n i m]: add<i> of filter [n]; [Output n m]: filter [n] signals [m]; [Called u m] *)
Inductive obs := Called (u : U) (m : M) | Input (n i : nat) (m : M) | Output (n : nat) (m : M).

Section Emit.
(** Invoking one callback, see [deliver] *)
Variable D : state -> list nat -> target -> M -> res (state * list obs).
(** signal1.hpp:104-114 (call): the loop over callbacks_ *)
Fixpoint call_all (s : state) (locked : list nat) (l : list (nat * target)) (m : M) : res (state * list obs) :=
  match l with
  | [] => Ok (s, [])
  | (_, t) :: l' =>
      do '(s1, tr1) <- D s locked t m;
      do '(s2, tr2) <- call_all s1 locked l' m;
      Ok (s2, tr1 ++ tr2)
  end.
(** signal1.hpp:104-114 (call): the filter's mutex is held; [locked] are the mutexes held *)
Definition emit (s : state) (locked : list nat) (n : nat) (m : M) : res (state * list obs) :=
  if existsb (Nat.eqb n) locked then Err Deadlock
  else
    do x <- live s n;
    do '(s', tr) <- call_all s (n :: locked) (cbs x) m;
    Ok (s', Output n m :: tr).
(** A filter signalling several messages one after the other *)
Fixpoint emit_all (s : state) (locked : list nat) (n : nat) (ms : list M) : res (state * list obs) :=
  match ms with
  | [] => Ok (s, [])
  | m :: ms' =>
      do '(s1, tr1) <- emit s locked n m;
      do '(s2, tr2) <- emit_all s1 locked n ms';
      Ok (s2, tr1 ++ tr2)
  end.
End Emit.

(** Invoking a callback; chain.hpp:206-211 (add: the first filter's add, a filter kept by
    plain address), 229-232 (lastFilterCB).  The fuel bounds the depth of nested calls: running
    out of it is unbounded recursion. *)
Fixpoint deliver (fuel : nat) (s : state) (locked : list nat) (t : target) (m : M) : res (state * list obs) :=
  match fuel with
  | O => Err OutOfFuel
  | Datatypes.S fuel' =>
      match t with
      | ToUser u => Ok (s, [Called u m])
      | ToInput n i =>
          do x <- live s n;
          match cls x with
          | Chain =>
              match filters x with
              | [] => Ok (s, [Input n i m])
              | (f, _) :: _ =>
                  do '(s', tr) <- deliver fuel' s locked (ToInput f 0) m;
                  Ok (s', Input n i m :: tr)
              end
          | c =>
              let '(y, outs) := behave c (st x) i m in
              do '(s', tr) <- emit_all (deliver fuel') (upd n (set_st x y) s) locked n outs;
              Ok (s', Input n i m :: tr)
          end
      | ToOutput n => do _ <- live s n; emit (deliver fuel') s locked n m
      end
  end.

(** ** Programs *)
(** [New c s0]: construct a filter; [ConnectInput n fs]; [AddFilter c f]; [GetFilter c i];
    [Register n u]: registerCallback; [Disconnect n k]: disconnect a connection returned by
    registerCallback; [Add n i m]: add<i>; [Emit n m]: the filter signals on its own;
    [Destroy n]. *)
Inductive op :=
| New (c : class) (s0 : S) | ConnectInput (n : nat) (fs : list nat) | AddFilter (c f : nat) (s0 : S)
| GetFilter (c i : nat) | Register (n : nat) (u : U) | Disconnect (n k : nat)
| Add (n i : nat) (m : M) | Emit (n : nat) (m : M) | Destroy (n : nat).
(** What a call returns *)
Inductive result := Created (n : nat) | Connected (k : nat) | Index (i : nat) | Filter (f : option nat) | Done.

(** a filter the user can name *)
Definition user (s : state) (n : nat) : res node :=
  do x <- live s n; if internal x then Err UB else Ok x.
(** Whether a callback is a function of the user *)
Definition is_user (t : target) : bool := match t with ToUser _ => true | _ => false end.

(** All filters named in the call can be named by the user *)
Fixpoint all_users (s : state) (l : list nat) : res unit :=
  match l with [] => Ok tt | n :: t => do _ <- user s n; all_users s t end.

(** The end of the lifetime of several filters *)
Fixpoint kill_all (s : state) (l : list nat) : state :=
  match l with
  | [] => s
  | n :: t => kill_all (match nth_error s n with Some x => upd n (kill x) s | None => s end) t
  end.

(** chain.hpp:176-184 and 57-66 with 214-221 (getFilter); the destructors; a chain destroys its
    passthroughs (the filters added are assumed to be still referenced by the user) *)
Definition step (fuel : nat) (s : state) (o : op) : res (state * result * list obs) :=
  match o with
  | New c s0 => Ok (s ++ [fresh c s0 false], Created (length s), [])
  | ConnectInput n fs =>
      do _ <- user s n; do _ <- all_users s fs;
      do s' <- connect_input s n fs; Ok (s', Done, [])
  | AddFilter c f s0 =>
      do _ <- user s c; do _ <- user s f;
      do '(s', i) <- add_filter s c f s0; Ok (s', Index i, [])
  | GetFilter c i =>
      do x <- user s c;
      match cls x with Chain => Ok (s, Filter (option_map fst (nth_error (filters x) i)), []) | _ => Err UB end
  | Register n u =>
      do _ <- user s n; do '(s', k) <- register s n (ToUser u); Ok (s', Connected k, [])
  | Disconnect n k =>
      do x <- user s n;
      if forallb (fun c => negb (Nat.eqb (fst c) k) || is_user (snd c)) (cbs x)
      then do s' <- disconnect s (Some (n, k)); Ok (s', Done, [])
      else Err UB                                 (* not a connection the user holds *)
  | Add n i m =>
      do x <- user s n;
      if i <? arity (cls x) then do '(s', tr) <- deliver fuel s [] (ToInput n i) m; Ok (s', Done, tr)
      else Err UB
  | Emit n m =>
      do x <- user s n;
      if emits (cls x) then do '(s', tr) <- emit (deliver fuel) s [] n m; Ok (s', Done, tr)
      else Err UB
  | Destroy n =>
      do x <- user s n;
      do s1 <- (if detaches (cls x) then disconnect_all s (ins x) else Ok s);
      do x1 <- live s1 n;
      Ok (kill_all s1 (n :: map snd (filters x1)), Done, [])
  end.

(** A sequence of calls *)
Fixpoint run (fuel : nat) (s : state) (h : list op) : res (state * list (result * list obs)) :=
  match h with
  | [] => Ok (s, [])
  | o :: h' =>
      do '(s1, r, tr) <- step fuel s o;
      do '(s2, rs) <- run fuel s1 h';
      Ok (s2, (r, tr) :: rs)
  end.
End Net.
Arguments target : clear implicits.
Arguments class : clear implicits.
Arguments node : clear implicits.
Arguments state : clear implicits.
Arguments obs : clear implicits.
Arguments op : clear implicits.
