(** LatestTime (include/message_filters/sync_policies/latest_time.hpp) whose output callbacks use
    the policy that calls them.  add<i> (144-168) holds data_mutex_ while it signals, as its last
    action (165-167, 201-205).  setRateConfigPerMessage, setRateConfig and setClock (129-142) take
    no mutex, so a callback may call them; add<i> from a callback locks data_mutex_ once more
    ([Err Deadlock]).

    Simplifications: those of Latest_Model.v; clocks are numbered, clock [k] has the source
    [src k], and an addition comes with the reading of every clock at that moment; all callbacks
    registered with the output are one function from the sets signalled so far, the current one
    last, to the calls made.  They only make calls of this policy. *)
From Coq Require Import List Arith ZArith Bool.
From Verif Require Import Base RclTime Latest_Model.
Import ListNotations.

(** The calls on a policy: add<i> (144-168), setRateConfigPerMessage or setRateConfig (129-137),
    setClock (139-142) *)
Inductive call (E D : Type) :=
| CAdd (i : nat) (e : E) (reading : nat -> Z)
| CConfig (cs : list (config D))
| CClock (k : nat).
Arguments CAdd {E D}. Arguments CConfig {E D}. Arguments CClock {E D}.

Section LatestBack.
Context {E D : Type} (f : fops D).
Variable n : nat.
Variable default : config D.
Variable src : nat -> clock.
Variable cb : list (list E) -> list (call E D).

(** The policy and its ros_clock_ (371-378) *)
Record st := mkSt { pol : state E D; ck : nat }.

(** A policy constructed with clock [k] (103-107) *)
Definition init_cb (k : nat) : st := mkSt (init n) k.

(** One call from a callback *)
Definition inside (s : st) (c : call E D) : res st :=
  match c with
  | CAdd _ _ _ => Err Deadlock
  | CConfig cs => Ok (mkSt (mkState (events (pol s)) (rates (pol s)) cs) (ck s))
  | CClock k => Ok (mkSt (pol s) k)
  end.

(** The calls of one callback, one after the other *)
Fixpoint insides (s : st) (cs : list (call E D)) : res st :=
  match cs with
  | [] => Ok s
  | c :: cs' => do s' <- inside s c; insides s' cs'
  end.

(** The set that an outcome is, if any *)
Definition published (x : outcome E) : list (list E) :=
  match x with Published set => [set] | _ => [] end.

(** 201-205 (publish): the callback is called with the set *)
Definition signal_cb (s : st) (seen : list (list E)) (x : outcome E) : res st :=
  match x with Published set => insides s (cb (seen ++ [set])) | _ => Ok s end.

(** One call from outside; [seen] are the sets signalled before *)
Definition step_cb (s : st) (seen : list (list E)) (c : call E D) : res (st * outcome E) :=
  match c with
  | CAdd i e r =>
      do '(p, x) <- add f n default (pol s) i e (mkTime (r (ck s)) (src (ck s)));
      do s' <- signal_cb (mkSt p (ck s)) seen x;
      Ok (s', x)
  | CConfig cs => Ok (mkSt (mkState (events (pol s)) (rates (pol s)) cs) (ck s), Quiet)
  | CClock k => Ok (mkSt (pol s) k, Quiet)
  end.

(** A sequence of calls from outside and what each did *)
Fixpoint run_cb (s : st) (seen : list (list E)) (h : list (call E D)) : res (st * list (outcome E)) :=
  match h with
  | [] => Ok (s, [])
  | c :: h' =>
      do '(s1, x) <- step_cb s seen c;
      do '(s2, xs) <- run_cb s1 (seen ++ published x) h';
      Ok (s2, x :: xs)
  end.
End LatestBack.
Arguments st : clear implicits.
