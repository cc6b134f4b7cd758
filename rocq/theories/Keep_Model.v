(** Messages that filters keep: Cache, TimeSequencer, InputAligner and the synchronizer policies store the
    events they receive (cache.hpp:154, time_sequencer.hpp:155, input_aligner.hpp:362, exact_time.hpp:98-99,
    approximate_epsilon_time.hpp:102-103, approximate_time.hpp:170-172, latest_time.hpp:158-163), while others
    are given the same message object.

    Which filter keeps which event is left open: every event ever created or received by a filter is kept and
    may be signalled at any time, any number of times, to any callbacks.  Callbacks may keep what they are given
    and write later.  The handling of events is that of [Event_Model]. *)
From Coq Require Import List Arith Bool.
From Verif Require Import Base Event_Model Event_Spec.
Import ListNotations.

Section Keep.
Context {V T : Type}.
(** The message objects; the events kept; the objects callbacks were given with the right to write *)
Record state := mkState { mem : heap V; kept : list (event T); granted : list nat }.
(** Nothing created yet *)
Definition init : state := mkState [] [] [].

(** pass_through.hpp:72-87, cache.hpp:125-159 and the other filters: the events a filter and those connected to it
    receive when it is handed [e] (signal1.hpp:67-71, 104-114) *)
Fixpoint received (e : event T) (x : node V) : list (event T) :=
  match x with
  | User _ => []
  | Filter cbs => e :: flat_map (received (flagged (1 <? length cbs) e)) cbs
  end.

(** [New v t nc]: MessageEvent<M const>(message, receipt time, nonconst_need_copy) (message_event.hpp:110-131);
    [Hand k cbs]: a filter with callbacks [cbs] signals kept event [k] (simple_filter.hpp, signalMessage);
    [Hand9 ks cbs]: a synchronizer with callbacks [cbs] signals the kept events [ks] (signal9.hpp:139-149);
    [Late j v]: a callback writes through the [j]-th right to write it was given *)
Inductive op :=
| New (v : V) (t : T) (nc : bool) | Hand (k : nat) (cbs : list (node V)) | Hand9 (ks : list nat) (cbs : list (callback9 V))
| Late (j : nat) (v : V).

(** Kept event [k] *)
Definition nth_kept (s : state) (k : nat) : res (event T) :=
  match nth_error (kept s) k with Some e => Ok e | None => Err UB end.
(** Several kept events *)
Fixpoint all_kept (s : state) (ks : list nat) : res (list (event T)) :=
  match ks with [] => Ok [] | k :: t => do e <- nth_kept s k; do es <- all_kept s t; Ok (e :: es) end.

(** One event *)
Definition step (s : state) (o : op) : res state :=
  match o with
  | New v t nc => Ok (mkState (mem s ++ [v]) (kept s ++ [mkEvent true (length (mem s)) None t nc]) (granted s))
  | Hand k cbs =>
      do e <- nth_kept s k;
      do '(h, os) <- signal (mem s) e cbs;
      Ok (mkState h (kept s ++ flat_map (received (flagged (1 <? length cbs) e)) cbs) (granted s ++ writable (map acc os)))
  | Hand9 ks cbs =>
      do es <- all_kept s ks;
      do '(h, os) <- signal9 (mem s) es cbs;
      Ok (mkState h (kept s) (granted s ++ flat_map (fun o => writable (snd o)) os))
  | Late j v =>
      match nth_error (granted s) j with
      | Some a => Ok (mkState (write (mem s) a v) (kept s) (granted s))
      | None => Err UB
      end
  end.
(** A sequence of events *)
Fixpoint run (s : state) (h : list op) : res state :=
  match h with [] => Ok s | o :: h' => do s1 <- step s o; run s1 h' end.
End Keep.
Arguments state : clear implicits.
Arguments op : clear implicits.
