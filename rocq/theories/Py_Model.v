(** Model of the Python implementation, src/message_filters/__init__.py: Cache,
    TimeSynchronizer and ApproximateTimeSynchronizer.

    Stamps are integers of nanoseconds (rclpy Time and Duration of one clock); Python integers are
    unbounded.  A dict is the list of its items in insertion order.  An exception leaves the
    function with the effects up to that point: in particular the lock stays acquired, and
    acquiring it again never returns ([Err Deadlock]).  The callbacks registered with the
    synchronizer are one function, which raises on the sets given by [raises].
    Not modelled: Subscriber (a call of rclpy), logging, stamps of different clocks, calling add
    directly with a dict that is no input of the synchronizer. *)
From Coq Require Import List ZArith Bool.
From Verif Require Import Base.
Import ListNotations.
Open Scope Z_scope.

(** what add finds in the message: no header or stamp; a stamp Time.from_msg refuses; a stamp *)
Inductive header := NoHeader | BadStamp | Stamp (t : Z).

Section Py.
Context {M : Type}.
Notation dict := (list (Z * M)).

(** ** Cache *)
(** __init__.py:105-116 (constructor): cache_times and cache_msgs, here as pairs: add appends to and deletes from
    both *)
Record pycache := mkPycache { items : dict; cache_size : Z; headerless : bool }.
(** __init__.py:105-116 (constructor) *)
Definition pycache_init (n : Z) (hl : bool) : pycache := mkPycache [] n hl.
(** __init__.py:121-150 (add); [now] is the clock's reading; returns what is signalled and whether an
    exception is raised *)
Definition pycache_store (c : pycache) (t : Z) (m : M) : pycache :=
  let l := items c ++ [(t, m)] in
  mkPycache (if cache_size c <? Z.of_nat (length l) then tl l else l) (cache_size c) (headerless c).
(** __init__.py:121-150 (add) *)
Definition pycache_add (c : pycache) (m : M) (hd : header) (now : Z) : pycache * list M * bool :=
  match hd with
  | NoHeader => if headerless c then (pycache_store c now m, [m], false) else (c, [], false)
  | BadStamp => (c, [], true)
  | Stamp t => (pycache_store c t m, [m], false)
  end.
(** __init__.py:152-157 *)
Definition pycache_interval (c : pycache) (a b : Z) : res (list M) :=
  if a <=? b then Ok (map snd (filter (fun x => (a <=? fst x) && (fst x <=? b)) (items c))) else Err AssertFailed.
(** __init__.py:159-165 *)
Definition pycache_after (c : pycache) (t : Z) : option M :=
  match map snd (filter (fun x => t <=? fst x) (items c)) with [] => None | m :: _ => Some m end.
(** __init__.py:167-173 *)
Definition pycache_before (c : pycache) (t : Z) : option M :=
  match rev (map snd (filter (fun x => fst x <=? t) (items c))) with [] => None | m :: _ => Some m end.
(** __init__.py:175-179, 181-185, 187-190 *)
Definition pycache_latest (c : pycache) : option Z := match rev (items c) with [] => None | x :: _ => Some (fst x) end.
(** __init__.py:181-185 (getOldestTime) *)
Definition pycache_oldest (c : pycache) : option Z := match items c with [] => None | x :: _ => Some (fst x) end.
(** __init__.py:187-190 (getLast) *)
Definition pycache_last (c : pycache) : option M := match pycache_latest c with None => None | Some t => pycache_after c t end.

(** ** dicts *)
Definition keys (q : dict) : list Z := map fst q.
(** t in q *)
Definition has (t : Z) (q : dict) : bool := existsb (Z.eqb t) (keys q).
(** q[t]; [None] is a KeyError *)
Fixpoint get (t : Z) (q : dict) : option M :=
  match q with [] => None | (k, m) :: r => if k =? t then Some m else get t r end.
(** q[t] = m: an existing key keeps its place *)
Fixpoint put (t : Z) (m : M) (q : dict) : dict :=
  match q with [] => [(t, m)] | (k, x) :: r => if k =? t then (k, m) :: r else (k, x) :: put t m r end.
(** del q[t] *)
Fixpoint del (t : Z) (q : dict) : dict :=
  match q with [] => [] | (k, x) :: r => if k =? t then r else (k, x) :: del t r end.
(** min(q) *)
Fixpoint min_key (k : Z) (q : dict) : Z := match q with [] => k | (t, _) :: r => min_key (Z.min k t) r end.
(** __init__.py:229-230 and 281-282: [None] is the exception min raises on an empty dict *)
Fixpoint trim (fuel : nat) (n : Z) (q : dict) : option dict :=
  match fuel with
  | O => None
  | S f => if n <? Z.of_nat (length q) then
             match q with [] => None | (k, _) :: r => trim f n (del (min_key k r) q) end
           else Some q
  end.
(** __init__.py:229-230 and 281-282: the while loop, with enough fuel *)
Definition shorten (n : Z) (q : dict) : option dict := trim (S (S (length q))) n q.

(** sorted(): insertion sort *)
Fixpoint zinsert (x : Z) (l : list Z) : list Z :=
  match l with [] => [x] | y :: r => if x <=? y then x :: l else y :: zinsert x r end.
(** sorted() on stamps *)
Definition zsort (l : list Z) : list Z := fold_right zinsert [] l.

(** q[t] for all queues; [None] is a KeyError *)
Fixpoint get_all (qs : list dict) (ts : list Z) : option (list M) :=
  match qs, ts with
  | q :: qs', t :: ts' => match get t q, get_all qs' ts' with Some m, Some ms => Some (m :: ms) | _, _ => None end
  | _, _ => Some []
  end.

(** ** Synchronizers *)
Section Sync.
(** The sets on which the registered callbacks raise an exception *)
Variable raises : list M -> bool.
(** __init__.py:213-223 (constructor, connectInput) *)
Record pysync := mkPysync { queues : list dict; queue_size : Z; locked : bool }.
(** __init__.py:213-223 (constructor, connectInput) *)
Definition pysync_init (k : nat) (n : Z) : pysync := mkPysync (repeat [] k) n false.
(** No counterpart in the code: replacing self.queues *)
Definition with_queues (s : pysync) (qs : list dict) : pysync := mkPysync qs (queue_size s) (locked s).
(** the lock is left acquired *)
Definition wedged (s : pysync) : pysync := mkPysync (queues s) (queue_size s) true.
(** what add does: new state, sets given to the callbacks, whether an exception is raised *)
Definition outcome : Type := pysync * list (list M) * bool.

(** __init__.py:232: the stamps that occur in all queues, sorted *)
Definition common (qs : list dict) : list Z :=
  match qs with [] => [] | q :: r => zsort (filter (fun t => forallb (has t) r) (keys q)) end.
(** __init__.py:233-238 *)
Fixpoint deliver_common (s : pysync) (ts : list Z) : outcome :=
  match ts with
  | [] => (s, [], false)
  | t :: r =>
      match get_all (queues s) (map (fun _ => t) (queues s)) with
      | None => (wedged s, [], true)
      | Some ms =>
          if raises ms then (wedged s, [ms], true)
          else let '(s', out, ex) := deliver_common (with_queues s (map (del t) (queues s))) r in (s', ms :: out, ex)
      end
  end.
(** __init__.py:225-239 (TimeSynchronizer.add).  With a negative queue_size the queue is emptied before
    the exception. *)
Definition exact_add (s : pysync) (i : nat) (m : M) (hd : header) : res outcome :=
  if locked s then Err Deadlock
  else match nth_error (queues s) i with
       | None => Err UB                          (* no such input *)
       | Some q =>
           match hd with
           | NoHeader | BadStamp => Ok (wedged s, [], true)
           | Stamp t =>
               match shorten (queue_size s) (put t m q) with
               | None => Ok (wedged (with_queues s (upd i [] (queues s))), [], true)
               | Some q' => let s1 := with_queues s (upd i q' (queues s)) in Ok (deliver_common s1 (common (queues s1)))
               end
           end
       end.

Section Approx.
(** __init__.py:257: self.slop in nanoseconds *)
Variable slop : Z.
(** __init__.py:258: self.allow_headerless *)
Variable allow_headerless : bool.
(** __init__.py:292-303: the stamps of a queue within slop of [t], closest first ([sorted] is stable) *)
Fixpoint dinsert (t x : Z) (l : list Z) : list Z :=
  match l with [] => [x] | y :: r => if Z.abs (x - t) <=? Z.abs (y - t) then x :: l else y :: dinsert t x r end.
(** __init__.py:292-303: the entry of stamps for one queue *)
Definition candidates (t : Z) (q : dict) : list Z :=
  fold_right (dinsert t) [] (filter (fun k => negb (slop <? Z.abs (k - t))) (keys q)).
(** __init__.py:305: itertools.product *)
Fixpoint product (l : list (list Z)) : list (list Z) :=
  match l with [] => [[]] | x :: r => flat_map (fun t => map (cons t) (product r)) x end.
(** __init__.py:309: vv.insert *)
Fixpoint insert_at (i : nat) (t : Z) (l : list Z) : list Z :=
  match i, l with O, _ => t :: l | S j, x :: r => x :: insert_at j t r | S _, [] => [t] end.
(** max(vv) *)
Definition zmax (l : list Z) : Z := match l with [] => 0 | x :: r => fold_left Z.max r x end.
(** min(vv) *)
Definition zmin (l : list Z) : Z := match l with [] => 0 | x :: r => fold_left Z.min r x end.
(** __init__.py:312: every stamp is a key of its queue *)
Definition all_has (qs : list dict) (ts : list Z) : bool := forallb (fun x => has (snd x) (fst x)) (combine qs ts).
(** __init__.py:305-312: the first combination that fits *)
Definition search (qs : list dict) (i : nat) (t : Z) (stamps : list (list Z)) : option (list Z) :=
  find (fun vv => (zmax vv - zmin vv <? slop) && all_has qs vv) (map (insert_at i t) (product stamps)).
(** __init__.py:315-316: del q[t] for every queue *)
Fixpoint del_all (qs : list dict) (ts : list Z) : list dict :=
  match qs, ts with q :: qs', t :: ts' => del t q :: del_all qs' ts' | _, _ => qs end.
(** __init__.py:284-288: the queues except the one added to *)
Definition others (i : nat) (qs : list dict) : list dict := firstn i qs ++ skipn (S i) qs.

(** __init__.py:279-318 (ApproximateTimeSynchronizer.add), once the stamp is known *)
Definition approx_stamped (s : pysync) (i : nat) (m : M) (t : Z) : res outcome :=
  if locked s then Err Deadlock
  else match nth_error (queues s) i with
       | None => Err UB
       | Some q =>
           match shorten (queue_size s) (put t m q) with
           | None => Ok (wedged (with_queues s (upd i [] (queues s))), [], true)
           | Some q' =>
               let s1 := with_queues s (upd i q' (queues s)) in
               let stamps := map (candidates t) (others i (queues s1)) in
               if existsb (fun l => match l with [] => true | _ => false end) stamps then Ok (s1, [], false)
               else match search (queues s1) i t stamps with
                    | None => Ok (s1, [], false)
                    | Some vv =>
                        match get_all (queues s1) vv with
                        | None => Ok (wedged s1, [], true)
                        | Some ms =>
                            if raises ms then Ok (wedged s1, [ms], true)
                            else Ok (with_queues s1 (del_all (queues s1) vv), [ms], false)
                        end
                    end
           end
       end.
(** __init__.py:260-278: the part before the lock; BadStamp raises there *)
Definition approx_add (s : pysync) (i : nat) (m : M) (hd : header) (now : Z) : res outcome :=
  match hd with
  | NoHeader => if allow_headerless then approx_stamped s i m now else Ok (s, [], false)
  | BadStamp => Ok (s, [], true)
  | Stamp t => approx_stamped s i m t
  end.
End Approx.
End Sync.
End Py.
Arguments pycache : clear implicits.
Arguments pysync : clear implicits.
