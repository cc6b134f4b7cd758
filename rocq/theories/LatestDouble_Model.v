(** LatestTime with the arithmetic of [double]: the operations of Latest_Model.v instantiated
    with IEEE 754 binary64, rounding to nearest, ties to even.  The operations are those of
    Coq.Floats.SpecFloat, the standard library's executable specification of binary64.

    Assumed of the build (DESIGN.md): the compiler evaluates [double] expressions operation by
    operation in binary64, i.e. no fused multiply-add and no extended precision. *)
From Coq Require Import List ZArith SpecFloat.
From Verif Require Import Base RclTime Latest_Model.
Import ListNotations.

(** binary64: 53 bits of precision, exponents below 1024 *)
Notation prec := 53%Z.
Notation emax := 1024%Z.
Notation double := spec_float.

(** Conversion of an integer to double. *)
Definition double_of_Z (z : Z) : double := binary_normalize prec emax z 0 false.

(** rclcpp::Duration::seconds(), used at latest_time.hpp:249, 338: the 64-bit count of
    nanoseconds is converted to double and divided by 1e9
    (std::chrono::duration<double>(std::chrono::nanoseconds(ns)).count()). *)
Definition seconds (z : Z) : double := SFdiv prec emax (double_of_Z z) (double_of_Z 1000000000).

(** The operations used at latest_time.hpp:238-241, 249-281, 338-352 *)
Definition dops : fops double := {|
  fzero := S754_zero false;
  fone := double_of_Z 1;
  fadd := SFadd prec emax;
  fsub := SFsub prec emax;
  fmul := SFmul prec emax;
  fdiv := SFdiv prec emax;
  fabs := SFabs;
  fgt := fun x y => SFltb y x;
  fle := SFleb;
  feq := SFeqb;
  fsecs := seconds |}.

(** latest_time.hpp:209-211: the literals 0.9, 0.3 and 10.0, the doubles nearest to them *)
Definition default_config : config double :=
  mkConfig (SFdiv prec emax (double_of_Z 9) (double_of_Z 10))
           (SFdiv prec emax (double_of_Z 3) (double_of_Z 10)) (double_of_Z 10).
