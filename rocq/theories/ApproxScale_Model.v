(** The arithmetic of the age penalty: a duration times the double (1 + age_penalty_).

    approximate_time.hpp:549, 565, 586, 595 multiply with rclcpp::Duration::operator*(double),
    which is not part of the repository: it converts the nanoseconds and the factor to long
    double, multiplies, and converts the product to a 64-bit integer with static_cast.
    A long double has 64 significant bits on x86 and 113 on 64-bit ARM: every 64-bit
    integer and every double is one, the product is rounded to nearest, ties to even, and
    the cast drops the fraction.

    The factor is the rational number num/den; for a double den is a power of two.
    Simplifications: a product that does not fit into 64 bits, where the cast is undefined,
    is truncated without rounding; the factor is finite (the operator throws otherwise). *)
From Coq Require Import ZArith Bool.
Local Open Scope Z_scope.

(** rclcpp::Duration::operator*: a/b rounded to an integer, to nearest, ties to even *)
Definition nearest_even (a b : Z) : Z :=
  let q := a / b in
  let r := a mod b in
  if 2 * r <? b then q else if b <? 2 * r then q + 1 else if Z.even q then q else q + 1.

(** rclcpp::Duration::operator*: a/b >= 0 rounded to [p] significant bits, then truncated.
    [s] is the number of bits after the binary point. *)
Definition long_double_trunc (p a b : Z) : Z :=
  let s := p - 1 - Z.log2 (a / b) in
  nearest_even (a * 2 ^ s) b / 2 ^ s.

(** rclcpp::Duration::operator*, called at approximate_time.hpp:549, 565, 586, 595 *)
Definition scale_long_double (p num den d : Z) : Z :=
  let a := Z.abs d * num in
  Z.sgn d * (if a / den <? 2 ^ 63 - 1 then long_double_trunc p a den else a / den).
