(** The queries of Cache with the integer types of the code: [int] has 32 bits, sizes and indices of the
    deque are size_t (64 bits), the cache size is an unsigned int (32 bits).  The contents are a list.
    getInterval uses size_t only and is as in [Cache_Model]; so are getLatestTime and getOldestTime, which use
    no index.  Signed overflow and access outside the deque are [Err UB].  Conversion to [int] is modulo 2^32
    (implementation-defined before C++20, as all compilers define it). *)
From Coq Require Import List ZArith Bool.
From Verif Require Import Base RclTime Cache_Model.
Import ListNotations.
Open Scope Z_scope.

(** int *)
Definition int_max : Z := 2 ^ 31 - 1.
(** static_cast<int> of an unsigned number *)
Definition to_int (z : Z) : Z := (z + 2 ^ 31) mod 2 ^ 32 - 2 ^ 31.
(** int subtraction of 1 *)
Definition pred_int (z : Z) : res Z := if z - 1 <? - 2 ^ 31 then Err UB else Ok (z - 1).
(** int addition of 1 *)
Definition succ_int (z : Z) : res Z := if int_max <? z + 1 then Err UB else Ok (z + 1).

Section CacheInt.
Context {E : Type} (stamp : E -> time).
Variable l : list E.                 (* cache_ *)
(** cache_.size() *)
Definition size : Z := Z.of_nat (length l).
(** cache_[i] for an int i: converted to size_t, a negative number is outside *)
Definition at_index (i : Z) : res E :=
  if i <? 0 then Err UB else match nth_error l (Z.to_nat i) with Some e => Ok e | None => Err UB end.

(** cache.hpp:219-224 *)
Fixpoint start_loop (fuel : nat) (start : time) (i : Z) : res Z :=
  match fuel with
  | O => Err OutOfFuel
  | S k => if 0 <? i then
             do e <- at_index i; do g <- time_gt (stamp e) start;
             if g then do j <- pred_int i; start_loop k start j else Ok i
           else Ok i
  end.
(** cache.hpp:226-231 *)
Fixpoint end_loop (fuel : nat) (stop : time) (i : Z) : res Z :=
  match fuel with
  | O => Err OutOfFuel
  | S k => do last <- pred_int (to_int size);
           if i <? last then
             do e <- at_index i; do b <- time_lt (stamp e) stop;
             if b then do j <- succ_int i; end_loop k stop j else Ok i
           else Ok i
  end.
(** cache.hpp:235-237: for (int i = start; i <= end; i++) push_back *)
Fixpoint copy_loop (fuel : nat) (i j : Z) : res (list E) :=
  match fuel with
  | O => Err OutOfFuel
  | S k => if i <=? j then do e <- at_index i; do i' <- succ_int i; do r <- copy_loop k i' j; Ok (e :: r) else Ok []
  end.
(** cache.hpp:206-240 (getSurroundingInterval) *)
Definition getSurroundingInterval_int (start stop : time) : res (list E) :=
  if size =? 0 then Ok []
  else
    do i0 <- pred_int (to_int size);
    do i <- start_loop (S (length l)) start i0;
    do j <- end_loop (S (length l)) stop i;
    do d <- succ_int (j - i);
    if d <? 0 then Err Thrown          (* reserve of a huge number: length_error *)
    else copy_loop (S (length l)) i j.

(** cache.hpp:253-258: unsigned int i, [elem_index = i] converts *)
Fixpoint before_loop (fuel : nat) (t : time) (i elem_index : Z) : res Z :=
  match fuel with
  | O => Err OutOfFuel
  | S k => if i <? size then
             do e <- at_index i; do b <- time_lt (stamp e) t;
             if b then before_loop k t ((i + 1) mod 2 ^ 32) (to_int i) else Ok elem_index
           else Ok elem_index
  end.
(** cache.hpp:247-267 (getElemBeforeTime) *)
Definition getElemBeforeTime_int (t : time) : res (option E) :=
  do x <- before_loop (S (length l)) t 0 (-1);
  if 0 <=? x then do e <- at_index x; Ok (Some e) else Ok None.

(** cache.hpp:282-287 *)
Fixpoint after_loop (fuel : nat) (t : time) (i elem_index : Z) : res Z :=
  match fuel with
  | O => Err OutOfFuel
  | S k => if 0 <=? i then
             do e <- at_index i; do g <- time_gt (stamp e) t;
             if g then do j <- pred_int i; after_loop k t j i else Ok elem_index
           else Ok elem_index
  end.
(** cache.hpp:274-296 (getElemAfterTime) *)
Definition getElemAfterTime_int (t : time) : res (option E) :=
  do i <- pred_int (to_int size);
  do x <- after_loop (S (length l)) t i (-1);
  if 0 <=? x then do e <- at_index x; Ok (Some e) else Ok None.
End CacheInt.

Section Run.
Context {E : Type} (stamp : E -> time).
(** One call, with the integers of the code *)
Definition step_int (s : state E) (o : op E) : state E * out E :=
  match o with
  | GetSurrounding a b => (s, query Elems (getSurroundingInterval_int stamp (contents s) a b))
  | GetBefore t => (s, query Elem (getElemBeforeTime_int stamp (contents s) t))
  | GetAfter t => (s, query Elem (getElemAfterTime_int stamp (contents s) t))
  | _ => step stamp s o
  end.
(** A whole life *)
Fixpoint run_int (s : state E) (h : list (op E)) : state E * list (out E) :=
  match h with
  | [] => (s, [])
  | o :: h' => let (s1, x) := step_int s o in let (s2, xs) := run_int s1 h' in (s2, x :: xs)
  end.
(** The results of a history of a cache constructed with size [n] *)
Definition outputs_int (n : nat) (h : list (op E)) : list (out E) := snd (run_int (ctor n) h).
End Run.
