(** Model of the Python synchronizers connected again: src/message_filters/__init__.py:219-223
    (TimeSynchronizer.connectInput) called after messages have been added.

    connectInput replaces self.queues by new dicts and registers add with the new filters; it does
    not remove add from the former ones (SimpleFilter has no way to), which go on calling it with
    the dicts they were registered with.  The rest is as in Py_Model. *)
From Coq Require Import List ZArith Bool.
From Verif Require Import Base Py_Model.
Import ListNotations.
Open Scope Z_scope.

Section PyRe.
Context {M : Type}.
Notation dict := (list (Z * M)).
Variable raises : list M -> bool.

(** [cur]: the synchronizer; [old]: the dicts of the former calls of connectInput, by call *)
Record resync := mkResync { cur : pysync M; old : list (list dict) }.
(** __init__.py:213-217 (constructor, which calls connectInput) *)
Definition start (k : nat) (n : Z) : resync := mkResync (pysync_init k n) [].
(** __init__.py:219-223 (connectInput) with [k] filters *)
Definition connect (s : resync) (k : nat) : resync :=
  mkResync (with_queues (cur s) (repeat [] k)) (old s ++ [queues (cur s)]).
(** No counterpart in the code: replacing the contents of a former dict *)
Definition set_old (s : resync) (g i : nat) (q : dict) : resync :=
  mkResync (cur s) (match nth_error (old s) g with Some qs => upd g (upd i q qs) (old s) | None => old s end).
(** No counterpart in the code: replacing the synchronizer, and leaving the former dicts *)
Definition with_cur (s : resync) (c : pysync M) : resync := mkResync c (old s).

(** __init__.py:225-239 (TimeSynchronizer.add) with a dict that is no longer in self.queues;
    reduce of no queues raises *)
Definition exact_stale (s : resync) (g i : nat) (m : M) (hd : header) : res (resync * list (list M) * bool) :=
  if locked (cur s) then Err Deadlock
  else match nth_error (old s) g with
       | None => Err UB
       | Some qs =>
         match nth_error qs i with
         | None => Err UB
         | Some q =>
           match hd with
           | NoHeader | BadStamp => Ok (with_cur s (wedged (cur s)), [], true)
           | Stamp t =>
               match shorten (queue_size (cur s)) (put t m q) with
               | None => Ok (with_cur (set_old s g i []) (wedged (cur s)), [], true)
               | Some q' =>
                   let s1 := set_old s g i q' in
                   match queues (cur s) with
                   | [] => Ok (with_cur s1 (wedged (cur s)), [], true)
                   | _ => let '(c, out, ex) := deliver_common raises (cur s) (common (queues (cur s))) in
                          Ok (with_cur s1 c, out, ex)
                   end
               end
           end
         end
       end.

Section Approx.
(** __init__.py:257-258 *)
Variables (slop : Z) (allow_headerless : bool).
(** __init__.py:279-318 (ApproximateTimeSynchronizer.add), once the stamp is known, with a dict that
    is no longer in self.queues; my_queue_index may be no index of self.queues, then nothing is
    left out of search_queues and vv.insert appends *)
Definition approx_stale_stamped (s : resync) (g i : nat) (m : M) (t : Z) : res (resync * list (list M) * bool) :=
  if locked (cur s) then Err Deadlock
  else match nth_error (old s) g with
       | None => Err UB
       | Some qs =>
         match nth_error qs i with
         | None => Err UB
         | Some q =>
           match shorten (queue_size (cur s)) (put t m q) with
           | None => Ok (with_cur (set_old s g i []) (wedged (cur s)), [], true)
           | Some q' =>
               let s1 := set_old s g i q' in
               let c := cur s in
               let stamps := map (candidates slop t) (others i (queues c)) in
               if existsb (fun l => match l with [] => true | _ => false end) stamps then Ok (s1, [], false)
               else match search slop (queues c) i t stamps with
                    | None => Ok (s1, [], false)
                    | Some vv =>
                        match get_all (queues c) vv with
                        | None => Ok (with_cur s1 (wedged c), [], true)
                        | Some ms =>
                            if raises ms then Ok (with_cur s1 (wedged c), [ms], true)
                            else Ok (with_cur s1 (with_queues c (del_all (queues c) vv)), [ms], false)
                        end
                    end
           end
         end
       end.
(** __init__.py:260-278: the part before the lock *)
Definition approx_stale (s : resync) (g i : nat) (m : M) (hd : header) (now : Z) : res (resync * list (list M) * bool) :=
  match hd with
  | NoHeader => if allow_headerless then approx_stale_stamped s g i m now else Ok (s, [], false)
  | BadStamp => Ok (s, [], true)
  | Stamp t => approx_stale_stamped s g i m t
  end.
End Approx.
End PyRe.
Arguments resync : clear implicits.

(** ** Cache *)
(** __init__.py:118-119 (Cache.connectInput) called again: add is registered with the new filter too,
    and the cache does not change.  Messages of all filters it was ever connected to are added:
    [pycache_add] for every message of either. *)
Definition pycache_connect {M} (c : pycache M) : pycache M := c.
