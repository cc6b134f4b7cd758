(** Model of the part of rclcpp::Time / builtin_interfaces::msg::Time that
    message_filters relies on.  rclcpp is outside /repo: the behaviour below is
    an assumption of the trusted base (see DESIGN.md). *)
From Coq Require Import List ZArith Lia Bool.
From Verif Require Import Base.
Local Open Scope Z_scope.

(** rcl_clock_type_t *)
Inductive clock := SystemClock | RosClock | SteadyClock.

(** Comparison of clock sources *)
Definition clock_eqb (a b : clock) : bool :=
  match a, b with
  | SystemClock, SystemClock | RosClock, RosClock | SteadyClock, SteadyClock => true
  | _, _ => false
  end.

Lemma clock_eqb_spec a b : reflect (a = b) (clock_eqb a b).
Proof. destruct a, b; constructor; congruence. Qed.

(** rclcpp::Time: nanoseconds and the clock source they belong to. *)
Record time := mkTime { ns : Z; clk : clock }.

(** rclcpp::Time(): zero, system clock (used e.g. at cache.hpp:307, time_sequencer.hpp:239). *)
Definition time_default : time := mkTime 0 SystemClock.

(** Comparison operators of rclcpp::Time throw std::runtime_error when the
    clock sources differ. *)
Definition time_lt (a b : time) : res bool :=
  if clock_eqb (clk a) (clk b) then Ok (ns a <? ns b) else Err Thrown.
(** operator<= of rclcpp::Time *)
Definition time_le (a b : time) : res bool :=
  if clock_eqb (clk a) (clk b) then Ok (ns a <=? ns b) else Err Thrown.
(** operator> of rclcpp::Time *)
Definition time_gt (a b : time) : res bool := time_lt b a.
(** operator>= of rclcpp::Time *)
Definition time_ge (a b : time) : res bool := time_le b a.
(** Subtraction throws when the clock sources differ; overflow is discussed by
    [header_sub_in_range]. *)
Definition time_sub (a b : time) : res Z :=
  if clock_eqb (clk a) (clk b) then Ok (ns a - ns b) else Err Thrown.
(** Time + Duration keeps the clock source. *)
Definition time_add (a : time) (d : Z) : time := mkTime (ns a + d) (clk a).

(** builtin_interfaces/Time as found in std_msgs/Header: int32 sec, uint32 nanosec. *)
Record msg_time := mkMsgTime { sec : Z; nanosec : Z }.
(** The range of the fields, with non-negative seconds *)
Definition msg_time_ok (m : msg_time) : Prop :=
  0 <= sec m < 2 ^ 31 /\ 0 <= nanosec m < 2 ^ 32.

(** message_traits.hpp:95-102: TimeStamp<M>::value with a header is
    rclcpp::Time(m.header.stamp, RCL_ROS_TIME); negative seconds make the
    rclcpp::Time constructor throw. *)
Definition time_of_header (m : msg_time) : res time :=
  if sec m <? 0 then Err Thrown
  else Ok (mkTime (sec m * 1000000000 + nanosec m) RosClock).

(** message_traits.hpp:85-93: without a header the stamp is
    rclcpp::Time(0, 0, RCL_ROS_TIME). *)
Definition time_of_headerless : time := mkTime 0 RosClock.

(** std::numeric_limits<int64_t>::min() *)
Definition int64_min := - 2 ^ 63.
(** std::numeric_limits<int64_t>::max() *)
Definition int64_max := 2 ^ 63 - 1.
(** The values of int64_t *)
Definition in_int64 (z : Z) := int64_min <= z <= int64_max.

(** Header stamps are ROS-clock times well inside int64: differences, and sums
    with any duration below 2^61 ns (about 73 years), never overflow. *)
Lemma header_time_range m t :
  msg_time_ok m -> time_of_header m = Ok t -> clk t = RosClock /\ 0 <= ns t < 2 ^ 61 + 2 ^ 33.
Proof.
  unfold time_of_header, msg_time_ok. intros [Hs Hn] H.
  destruct (Z.ltb_spec (sec m) 0) as [|_]; [lia|].
  injection H as <-; cbn. split; auto. lia.
Qed.

Lemma header_sub_in_range m1 m2 t1 t2 :
  msg_time_ok m1 -> msg_time_ok m2 -> time_of_header m1 = Ok t1 -> time_of_header m2 = Ok t2 ->
  exists d, time_sub t1 t2 = Ok d /\ in_int64 d.
Proof.
  intros H1 H2 E1 E2.
  apply header_time_range in E1 as [C1 R1]; auto. apply header_time_range in E2 as [C2 R2]; auto.
  unfold time_sub. rewrite C1, C2; cbn. eexists; split; eauto.
  unfold in_int64, int64_min, int64_max. lia.
Qed.

Lemma header_add_in_range m t d :
  msg_time_ok m -> time_of_header m = Ok t -> - 2 ^ 61 <= d <= 2 ^ 61 -> in_int64 (ns (time_add t d)).
Proof.
  intros H E Hd. apply header_time_range in E as [_ R]; auto.
  unfold in_int64, int64_min, int64_max, time_add; cbn. lia.
Qed.
