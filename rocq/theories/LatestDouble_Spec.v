(** Independent vocabulary for LatestTime with doubles. *)
From Coq Require Import List Arith ZArith SpecFloat.
From Verif Require Import Base RclTime Latest_Model Latest_Spec LatestDouble_Model.
Import ListNotations.

(** A double that is a number: neither infinite nor NaN, and in the binary64 format. *)
Definition number (x : double) : Prop :=
  valid_binary prec emax x = true /\
  match x with S754_zero _ | S754_finite _ _ _ => True | _ => False end.

(** A number in [0, 1]; a number that is not negative. *)
Definition weight (x : double) : Prop :=
  number x /\ SFleb (double_of_Z 0) x = true /\ SFleb x (double_of_Z 1) = true.
Definition factor (x : double) : Prop := number x /\ SFleb (double_of_Z 0) x = true.

(** A sensible configuration: smoothing factors in [0, 1], a margin that is not negative. *)
Definition sensible (cf : config double) : Prop :=
  weight (rate_alpha cf) /\ weight (error_alpha cf) /\ factor (margin cf).

(** A reading of a clock: a signed 64-bit number of nanoseconds. *)
Definition int64 (z : Z) : Prop := (- 2 ^ 63 <= z < 2 ^ 63)%Z.

(** Every reading is a 64-bit number, every configuration passed is sensible. *)
Definition sensible_history {E} (h : list (op E double)) : Prop :=
  (forall i e t, In (Add i e t) h -> int64 (ns t)) /\
  (forall cs cf, In (SetConfig cs) h -> In cf cs -> sensible cf).

(** ** Periodic inputs *)
(** The rate 1/p and the smoothed rate after two equal intervals of [p] nanoseconds, with
    smoothing factor [a]. *)
Definition rate_of (p : Z) : double := SFdiv prec emax (double_of_Z 1) (seconds p).
Definition smoothed (a : double) (p : Z) : double :=
  SFadd prec emax (SFdiv prec emax a (seconds p))
                  (SFmul prec emax (SFsub prec emax (double_of_Z 1) a) (rate_of p)).
(** Smoothing leaves the rate of [p] as it is. *)
Definition settled (a : double) (p : Z) : Prop := smoothed a p = rate_of p.

(** The estimate of an input of period [p] with [c] messages. *)
Definition rate_after (a : double) (p : Z) (c : nat) : double :=
  if Nat.even c then rate_of p else smoothed a p.

(** [z] nanoseconds after its last message, such an input has become late: its estimate
    exceeds the rate of [z]. *)
Definition overdue (a : double) (p : Z) (c : nat) (z : Z) : Prop :=
  (0 < z)%Z /\ SFltb (rate_of z) (rate_after a p c) = true.

(** Input [i] with rate [x] is preferred to input [j] with rate [y]. *)
Definition preferred (i j : nat) (x y : double) : Prop :=
  SFltb y x = true \/ SFltb x y = false /\ i < j.

(** [cf j] is the configuration in effect for input [j] at its first message. *)
Definition configured {E} (n : nat) (dflt : config double) (cf : nat -> config double) (h : list (op E double)) : Prop :=
  forall h1 j e t h2, h = h1 ++ Add j e t :: h2 -> received j h1 = [] ->
    expected_config n dflt (last_config h1) j = cf j.

(** ** The estimate of one input *)
(** The rate after the readings [ts]; consecutive readings of one clock, [lo] to [hi]
    nanoseconds apart. *)
Fixpoint estimate (r : rate double) (ts : list time) : res (rate double) :=
  match ts with [] => Ok r | t :: ts' => do '(r', _) <- compute_hz dops t r; estimate r' ts' end.
Fixpoint intervals (lo hi : Z) (t0 : time) (ts : list time) : Prop :=
  match ts with
  | [] => True
  | t :: ts' => clk t = clk t0 /\ int64 (ns t) /\ (lo <= ns t - ns t0 <= hi)%Z /\ intervals lo hi t ts'
  end.
