(** Independent vocabulary for LatestTime. *)
From Coq Require Import List Arith ZArith Bool.
From Verif Require Import Base RclTime Trace Latest_Model.
Import ListNotations.

Section Spec.
Context {E D : Type}.

Definition well_indexed (n : nat) (h : list (op E D)) : Prop :=
  forall i e t, In (Add i e t) h -> i < n.

(** The additions of a history as (input, message) pairs. *)
Definition adds (h : list (op E D)) : list (nat * E) :=
  flat_map (fun o => match o with Add i e _ => [(i, e)] | _ => [] end) h.

(** The messages of input [i], in order of arrival. *)
Definition received (i : nat) (h : list (op E D)) : list E := stream i (adds h).

(** The most recent message of input [i]. *)
Definition latest (i : nat) (h : list (op E D)) : option E := hd_error (rev (received i h)).

(** How many of the [n] inputs have received a message. *)
Definition started (n : nat) (h : list (op E D)) : nat :=
  length (filter (fun i => match received i h with [] => false | _ => true end) (seq 0 n)).

(** Whenever an input receives a message that is not its first, more inputs have started
    than its index. *)
Definition enough_started (n : nat) (h : list (op E D)) : Prop :=
  forall h1 i e t h2, h = h1 ++ Add i e t :: h2 -> received i h1 <> [] -> i < started n h1.

(** Inputs receive their first messages in index order. *)
Definition started_in_order (n : nat) (h : list (op E D)) : Prop :=
  forall h1 i j e t h2, h = h1 ++ Add i e t :: h2 -> j < i -> received j h1 <> [].

(** No input receives a second message before every input has received one. *)
Definition all_once_first (n : nat) (h : list (op E D)) : Prop :=
  forall h1 i j e t h2, h = h1 ++ Add i e t :: h2 -> received i h1 <> [] -> j < n -> received j h1 <> [].

(** All clock readings are of one source. *)
Definition one_clock (k : clock) (h : list (op E D)) : Prop :=
  forall i e t, In (Add i e t) h -> clk t = k.

(** The argument of the last configuration call (none: the empty list). *)
Definition last_config (h : list (op E D)) : list (config D) :=
  fold_left (fun acc o => match o with SetConfig cs => cs | _ => acc end) h [].

(** The configuration meant for input [i]: one per input, or one for all, else the
    default. *)
Definition expected_config (n : nat) (default : config D) (cs : list (config D)) (i : nat) : config D :=
  match cs with
  | [] => default
  | [c] => c
  | _ => if Nat.eqb (length cs) n then nth i cs default else default
  end.

(** ** Choice of the input that triggers the output *)
Variable f : fops D.

(** [r] has a rate and is not late: either it was just updated, or its error is not
    known yet, or its rate exceeds the one suggested by the time since its last message
    by no more than the margin. *)
Definition eligible (now : time) (r : rate D) : Prop :=
  exists d, time_sub now (prev r) = Ok d /\ fgt f (hz r) (fzero f) = true /\
    (feq f (fsecs f d) (fzero f) = true \/ do_error_init r = true \/
     fgt f (fsub f (hz r) (fdiv f (fone f) (fsecs f d))) (fmul f (margin (conf r)) (error r)) = false).

(** Input [p] is the fastest eligible one, the first among equally fast ones. *)
Definition fastest (now : time) (rs : list (rate D)) (p : nat) : Prop :=
  exists r, nth_error rs p = Some r /\ eligible now r /\
    forall q r', nth_error rs q = Some r' -> eligible now r' ->
      fgt f (hz r') (hz r) = false /\ (q < p -> fgt f (hz r) (hz r') = true).

(** [fgt] is a strict weak order on the rates (no NaN). *)
Definition comparable (rs : list (rate D)) : Prop :=
  (forall a, In a rs -> fgt f (hz a) (hz a) = false) /\
  (forall a b c, In a rs -> In b rs -> In c rs ->
     fgt f (hz a) (hz b) = true -> fgt f (hz b) (hz c) = true -> fgt f (hz a) (hz c) = true) /\
  (forall a b c, In a rs -> In b rs -> In c rs ->
     fgt f (hz a) (hz b) = false -> fgt f (hz b) (hz c) = false -> fgt f (hz a) (hz c) = false).
End Spec.
