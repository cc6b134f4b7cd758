(** Model of the comparison operators of MessageEvent
    (include/message_filters/message_event.hpp:178-200), for events as in Event_Model.v.

    [less] is operator< of shared_ptr on the addresses of messages, std::less on pointers: a
    strict total order about which nothing else is known.  The operators are not const: they can
    be applied to variables, but std::set or std::map of events do not compile. *)
From Coq Require Import List Arith ZArith Bool.
From Verif Require Import Base RclTime Event_Model.

(** operator== of rclcpp::Time (outside /repo, as RclTime.v): throws when the clocks differ *)
Definition time_eq (a b : time) : res bool :=
  if clock_eqb (clk a) (clk b) then Ok (Z.eqb (ns a) (ns b)) else Err Thrown.
(** operator!= of rclcpp::Time *)
Definition time_ne (a b : time) : res bool := do e <- time_eq a b; Ok (negb e).

(** message_event.hpp:191-195 (operator==): && stops at the first difference; the comparison of
    the receipt times throws when their clocks differ *)
Definition ev_eq (a b : event time) : res bool :=
  if Nat.eqb (msg a) (msg b) then
    do t <- time_eq (receipt a) (receipt b);
    Ok (t && Bool.eqb (need a) (need b))
  else Ok false.

(** message_event.hpp:197-200 (operator!=) *)
Definition ev_ne (a b : event time) : res bool := do e <- ev_eq a b; Ok (negb e).

(** message_event.hpp:178-189 (operator<) *)
Definition ev_lt (less : nat -> nat -> bool) (a b : event time) : res bool :=
  if negb (Nat.eqb (msg a) (msg b)) then Ok (less (msg a) (msg b))
  else
    do d <- time_ne (receipt a) (receipt b);
    if (d : bool) then time_lt (receipt a) (receipt b)
    else Ok (negb (need a) && need b).
