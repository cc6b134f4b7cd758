(** Model of include/message_filters/sync_policies/latest_time.hpp (class LatestTime).

    Simplifications: the number of inputs [n] is a parameter; the double-precision
    operations are an arbitrary record [fops] (LatestDouble_Model.v instantiates it with
    binary64); the reading of ros_clock_->now() is an argument of each addition, with its
    clock source, so setClock is covered; the mutex is treated in Sched_Model.v.  A
    std::runtime_error thrown by rclcpp::Time subtraction in find_pivot leaves add() after
    the state has been changed: it is the outcome [Threw].  Reading rates_[i] beyond the
    end of the vector is [Err UB].  std::stable_sort is insertion sort (the same result
    when the comparison is a strict weak order, i.e. no rate is NaN). *)
From Coq Require Import List Arith ZArith Bool.
From Verif Require Import Base RclTime.
Import ListNotations.

(** The double operations used. *)
Record fops (D : Type) := mkFops {
  fzero : D; fone : D;
  fadd : D -> D -> D; fsub : D -> D -> D; fmul : D -> D -> D; fdiv : D -> D -> D; fabs : D -> D;
  fgt : D -> D -> bool; fle : D -> D -> bool; feq : D -> D -> bool;
  fsecs : Z -> D                  (* rclcpp::Duration::seconds() *)
}.
Arguments fzero {D}. Arguments fone {D}. Arguments fadd {D}. Arguments fsub {D}. Arguments fmul {D}.
Arguments fdiv {D}. Arguments fabs {D}. Arguments fgt {D}. Arguments fle {D}. Arguments feq {D}. Arguments fsecs {D}.

Section Latest.
Context {E D : Type} (f : fops D).
Variable n : nat.                 (* RealTypeCount::value = N_MESSAGES *)

(** latest_time.hpp:94-96 (RateConfig) and the defaults 209-211 *)
Record config := mkConfig { rate_alpha : D; error_alpha : D; margin : D }.
Variable default : config.        (* 0.9, 0.3, 10.0 *)

(** latest_time.hpp:207-220 (Rate) *)
Record rate := mkRate {
  prev : time; hz : D; error : D; conf : config; do_hz_init : bool; do_error_init : bool }.

(** latest_time.hpp:222-236 (constructors of Rate) *)
Definition new_rate (start : time) (cf : config) : rate :=
  mkRate start (fzero f) (fzero f) cf true true.

(** latest_time.hpp:243-286 (compute_hz), the do/while; [continue] jumps to the test of
    step_change_detected, which is then true. *)
Fixpoint hz_loop (fuel : nat) (now : time) (r : rate) : res (rate * bool) :=
  match fuel with
  | O => Err OutOfFuel
  | S fuel' =>
      match time_sub now (prev r) with
      | Err Thrown => Ok (r, false)
      | Err e => Err e
      | Ok d =>
          let period := fsecs f d in
          if fle f period (fzero f) then Ok (r, false)
          else
            let inv := fdiv f (fone f) period in
            if do_hz_init r then
              Ok (mkRate now inv (error r) (conf r) false (do_error_init r), true)
            else
              let delta := fabs f (fsub f (hz r) inv) in
              let a := rate_alpha (conf r) in
              let b := error_alpha (conf r) in
              let hz' := fadd f (fdiv f a period) (fmul f (fsub f (fone f) a) (hz r)) in
              if do_error_init r then
                Ok (mkRate now hz' delta (conf r) false false, true)
              else if fgt f delta (fmul f (margin (conf r)) (error r)) then
                hz_loop fuel' now (mkRate (prev r) (hz r) (error r) (conf r) true true)
              else
                Ok (mkRate now hz' (fadd f (fmul f b delta) (fmul f (fsub f (fone f) b) (error r)))
                           (conf r) false false, true)
      end
  end.
(** latest_time.hpp:243-286 (compute_hz): a step change is followed by a second iteration only *)
Definition compute_hz (now : time) (r : rate) : res (rate * bool) := hz_loop 2 now r.

(** latest_time.hpp:290-306 (sort_indices with Rate::operator>, 238-241): stable, larger
    rates first *)
Fixpoint ins (x : nat * rate) (l : list (nat * rate)) : list (nat * rate) :=
  match l with
  | [] => [x]
  | y :: t => if fgt f (hz (snd y)) (hz (snd x)) then y :: ins x t else x :: l
  end.
(** latest_time.hpp:290-306 (sort_indices): std::stable_sort *)
Fixpoint sort (l : list (nat * rate)) : list (nat * rate) :=
  match l with [] => [] | x :: t => ins x (sort t) end.
(** latest_time.hpp:294-295: std::iota, the indices of the rates *)
Fixpoint indexed (i : nat) (l : list rate) : list (nat * rate) :=
  match l with [] => [] | r :: t => (i, r) :: indexed (S i) t end.

(** latest_time.hpp:330-369 (find_pivot); [None] is NO_PIVOT *)
Fixpoint pick (now : time) (l : list (nat * rate)) : res (option nat) :=
  match l with
  | [] => Ok None
  | (i, r) :: t =>
      do d <- time_sub now (prev r);
      let period := fsecs f d in
      if feq f period (fzero f) then
        if fgt f (hz r) (fzero f) then Ok (Some i) else pick now t
      else if negb (do_error_init r) &&
              fgt f (fsub f (hz r) (fdiv f (fone f) period)) (fmul f (margin (conf r)) (error r)) then
        pick now t
      else if fgt f (hz r) (fzero f) then Ok (Some i) else pick now t
  end.
(** latest_time.hpp:330-369 (find_pivot) *)
Definition find_pivot (now : time) (rs : list rate) : res (option nat) :=
  pick now (sort (indexed 0 rs)).

(** latest_time.hpp:371-376: events_ ([None]: no message), rates_, rate_configs_ *)
Record state := mkState { events : list (option E); rates : list rate; configs : list config }.
(** latest_time.hpp:98-107 (constructors) *)
Definition init : state := mkState (repeat None n) [] [].

(** latest_time.hpp:109-122 (copy constructor, operator=): not rate_configs_ *)
Definition copy (s : state) : state := mkState (events s) (rates s) [].

(** latest_time.hpp:171-199 (initialize_rate<i>): the configuration used *)
Definition config_for (s : state) (i : nat) : config :=
  match configs s with
  | [] => default
  | c0 :: t =>
      if Nat.eqb (length (configs s)) n then nth i (configs s) default
      else match t with [] => c0 | _ => default end
  end.

(** latest_time.hpp:308-328 (received_msg, is_full) and 201-205 (publish) *)
Fixpoint full (evs : list (option E)) : option (list E) :=
  match evs with
  | [] => Some []
  | None :: _ => None
  | Some e :: t => match full t with Some l => Some (e :: l) | None => None end
  end.

(** What add does for the outside: nothing, signal a set, or throw *)
Inductive outcome := Quiet | Published (set : list E) | Threw.

(** latest_time.hpp:144-168 (add<i>) *)
Definition add (s : state) (i : nat) (e : E) (now : time) : res (state * outcome) :=
  match nth_error (events s) i with
  | None => Err UB
  | Some None =>
      Ok (mkState (upd i (Some e) (events s)) (rates s ++ [new_rate now (config_for s i)]) (configs s), Quiet)
  | Some (Some _) =>
      let evs := upd i (Some e) (events s) in
      match nth_error (rates s) i with
      | None => Err UB
      | Some r =>
          do '(r', valid) <- compute_hz now r;
          let s' := mkState evs (upd i r' (rates s)) (configs s) in
          if (valid : bool) then
            match find_pivot now (rates s') with
            | Err Thrown => Ok (s', Threw)
            | Err e => Err e
            | Ok p =>
                if match p with Some j => Nat.eqb j i | None => false end then
                  match full evs with Some set => Ok (s', Published set) | None => Ok (s', Quiet) end
                else Ok (s', Quiet)
            end
          else Ok (s', Quiet)
      end
  end.

(** API calls; [SetConfig] is setRateConfigPerMessage (latest_time.hpp:129-132) or, with a one-element
    list, setRateConfig (134-137). *)
Inductive op := Add (i : nat) (e : E) (now : time) | SetConfig (cs : list config).

(** One call *)
Definition step (s : state) (o : op) : res (state * outcome) :=
  match o with
  | Add i e now => add s i e now
  | SetConfig cs => Ok (mkState (events s) (rates s) cs, Quiet)
  end.

(** A sequence of calls and what each did *)
Fixpoint run (s : state) (h : list op) : res (state * list outcome) :=
  match h with
  | [] => Ok (s, [])
  | o :: h' =>
      do '(s1, o1) <- step s o;
      do '(s2, o2) <- run s1 h';
      Ok (s2, o1 :: o2)
  end.
End Latest.
Arguments config : clear implicits.
Arguments rate : clear implicits.
Arguments state : clear implicits.
Arguments op : clear implicits.
Arguments outcome : clear implicits.
