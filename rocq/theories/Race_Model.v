(** Which members the methods of the filters access, and which mutexes they hold meanwhile.

    A method is described by [code]: what it may do, without the values.  [Any cs] is any sequence of
    the [cs], in any order, with repetitions and omissions: this covers all branches and loops of the
    C++ code.  Simplifications: user callbacks, messages and the internals of rclcpp are left out; a
    container is one variable; constructors, destructors, connectInput and initParent run before or
    after the concurrent use (they are not described); getName and setName are left out, they access
    name_ without a mutex and nothing else does; ROS logging is left out. *)
From Coq Require Import List Arith Bool.
From Verif Require Import Base.
Import ListNotations.

(** the mutexes of an object: the one of the filter or policy (cache_lock_, messages_mutex_, mutex_,
    data_mutex_), the one of its signal, the one of ExactTime's drop_signal_ *)
Inductive mutex_kind := Kobj | Ksig | Kdrop.
(** A mutex: object and kind *)
Definition mutex : Type := nat * mutex_kind.
(** Mutexes can be told apart *)
Definition mutex_eq_dec (a b : mutex) : {a = b} + {a <> b}.
Proof. repeat decide equality. Defined.

(** the members *)
Inductive member :=
| Callbacks        (* Signal1 / Signal9 callbacks_: signal1.hpp:118, signal9.hpp:153 *)
| DropCallbacks    (* callbacks_ of ExactTime::drop_signal_: exact_time.hpp:192 *)
| Parent           (* parent_ of a policy *)
| QueueSize        (* queue_size_ *)
| Deque            (* Cache::cache_: cache.hpp:341 *)
| CacheSize        (* Cache::cache_size_: cache.hpp:342 *)
| Messages         (* TimeSequencer::messages_: time_sequencer.hpp:237 *)
| LastTime         (* TimeSequencer::last_time_: time_sequencer.hpp:239 *)
| Delay            (* TimeSequencer::delay_: time_sequencer.hpp:229 *)
| Tuples           (* ExactTime::tuples_: exact_time.hpp:189 *)
| LastSignalTime   (* ExactTime::last_signal_time_: exact_time.hpp:190 *)
| Search           (* ApproximateTime: deques_, num_non_empty_deques_, past_, candidate_..., pivot_...,
                      has_dropped_messages_, warned_about_incorrect_bound_: approximate_time.hpp:626-633, 639, 641 *)
| MaxInterval      (* ApproximateTime::max_interval_duration_: approximate_time.hpp:636 *)
| AgePenalty       (* ApproximateTime::age_penalty_: approximate_time.hpp:637 *)
| LowerBounds      (* ApproximateTime::inter_message_lower_bounds_: approximate_time.hpp:640 *)
| Events           (* ApproximateEpsilonTime, LatestTime: events_ and counters *)
| Epsilon          (* ApproximateEpsilonTime::epsilon_ *)
| Rates            (* LatestTime::rates_: latest_time.hpp:373 *)
| RateConfigs      (* LatestTime::rate_configs_: latest_time.hpp:376 *)
| RosClock         (* LatestTime::ros_clock_: latest_time.hpp:380 *)
| EventQueues      (* InputAligner::event_queues_ with periods and counters *)
| LastTs           (* InputAligner::last_in_ts_, last_out_ts_: input_aligner.hpp:423-424 *)
| Timeout.         (* InputAligner::timeout_: input_aligner.hpp:422 *)
Definition var : Type := nat * member.
(** Variables can be told apart *)
Definition var_eq_dec (a b : var) : {a = b} + {a <> b}.
Proof. repeat decide equality. Defined.

(** What a method may do: read, write, work while holding a mutex, any sequence of parts *)
Inductive code := Reads (v : var) | Writes (v : var) | Lock (m : mutex) (c : code) | Any (cs : list code).

(** ** The methods of object [o].  [down]: what the callbacks registered with its signal do *)
Section Methods.
Variables (o : nat) (down : list code).
(** Reading a member of the object *)
Definition reads (x : member) : code := Reads (o, x).
(** Writing a member of the object *)
Definition writes (x : member) : code := Writes (o, x).
(** Reading and writing a member of the object *)
Definition changes (x : member) : code := Any [reads x; writes x].
(** std::lock_guard or std::unique_lock on a mutex of the object for all of [cs] *)
Definition locked (k : mutex_kind) (cs : list code) : code := Lock (o, k) (Any cs).

(** Signal1::addCallback, removeCallback (signal1.hpp:84-102) behind SimpleFilter::registerCallback
    (simple_filter.hpp:74-102) and Connection::disconnect; the same in Signal9 (signal9.hpp:91-99,
    129-137) behind Synchronizer::registerCallback *)
Definition register : code := locked Ksig [changes Callbacks].
(** Signal1::call (signal1.hpp:104-114), Signal9::call (signal9.hpp:139-149) *)
Definition call : code := locked Ksig (reads Callbacks :: down).

(** pass_through.hpp:72-87 (add) *)
Definition pass_add : code := call.

(** cache.hpp:125-159 (add) *)
Definition cache_add : code := Any [locked Kobj [changes Deque; reads CacheSize]; call].
(** cache.hpp:169-332: getInterval, getSurroundingInterval, getElemBeforeTime, getElemAfterTime,
    getLatestTime, getOldestTime *)
Definition cache_query : code := locked Kobj [reads Deque].
(** cache.hpp:102-110 (setCacheSize): no mutex *)
Definition cache_set_size : code := writes CacheSize.

(** time_sequencer.hpp:146-160 (add) *)
Definition seq_add : code := locked Kobj [changes Messages; reads LastTime; reads QueueSize].
(** time_sequencer.hpp:190-219 (dispatch) *)
Definition seq_dispatch : code := Any [locked Kobj [changes Messages; writes LastTime; reads Delay]; call].

(** exact_time.hpp:87-102, 138-184 (add with checkTuple, clearOldTuples, drop_range) *)
Definition exact_add : code :=
  Any [reads Parent; locked Kobj [changes Tuples; changes LastSignalTime; reads Parent; reads QueueSize; call; locked Kdrop [reads DropCallbacks]]].
(** exact_time.hpp:104-126 (registerDropCallback) *)
Definition exact_register_drop : code := locked Kdrop [changes DropCallbacks].

(** approximate_time.hpp:165-201 (add with everything it calls) *)
Definition approx_add : code :=
  locked Kobj [changes Search; reads QueueSize; reads Parent; reads MaxInterval; reads AgePenalty; reads LowerBounds; call].
(** approximate_time.hpp:203-225 (setAgePenalty, setInterMessageLowerBound, setMaxIntervalDuration): no mutex *)
Definition approx_set_penalty : code := writes AgePenalty.
(** approximate_time.hpp:211-217 (setInterMessageLowerBound): no mutex *)
Definition approx_set_bound : code := writes LowerBounds.
(** approximate_time.hpp:219-225 (setMaxIntervalDuration): no mutex *)
Definition approx_set_max : code := writes MaxInterval.

(** approximate_epsilon_time.hpp:96-113 (add with process) *)
Definition eps_add : code :=
  Any [reads Parent; locked Kobj [changes Events; reads QueueSize; reads Epsilon; reads Parent; call]].

(** latest_time.hpp:144-168 (add with everything it calls) *)
Definition latest_add : code :=
  Any [reads Parent; locked Kobj [changes Events; changes Rates; reads RateConfigs; reads RosClock; reads Parent; call]].
(** latest_time.hpp:129-142 (setRateConfigPerMessage, setRateConfig, setClock): no mutex *)
Definition latest_set_config : code := writes RateConfigs.
(** latest_time.hpp:139-142 (setClock): no mutex *)
Definition latest_set_clock : code := writes RosClock.

(** input_aligner.hpp:339-364 (addEvent) *)
Definition aligner_add : code := locked Kobj [changes EventQueues; changes LastTs].
(** input_aligner.hpp:226-240 (dispatchMessages) *)
Definition aligner_dispatch : code := locked Kobj [changes EventQueues; changes LastTs; reads Timeout; call].
(** input_aligner.hpp:196-206 (setInputPeriod, getQueueStatus): no mutex *)
Definition aligner_set_period : code := writes EventQueues.
(** input_aligner.hpp:202-206 (getQueueStatus): no mutex *)
Definition aligner_status : code := reads EventQueues.
End Methods.

(** ** Networks: filters connected to each other.  Object [o] is a filter of the given class; its
    signal calls the add of the filters in the list. *)
Inductive cls := PassThrough | Cache | TimeSequencer | ExactTime | ApproximateTime | ApproximateEpsilonTime | LatestTime | InputAligner.
(** The filters by number, with the filters their signals call *)
Definition net : Type := list (cls * list nat).
(** The filters called by the signal of filter [o] *)
Definition outs (n : net) (o : nat) : list nat := match nth_error n o with Some (_, l) => l | None => [] end.
(** the method that takes a message *)
Definition add_of (k : cls) (o : nat) (down : list code) : code :=
  match k with
  | PassThrough => pass_add o down | Cache => cache_add o down | TimeSequencer => seq_add o | ExactTime => exact_add o down
  | ApproximateTime => approx_add o down | ApproximateEpsilonTime => eps_add o down | LatestTime => latest_add o down | InputAligner => aligner_add o
  end.
(** the other methods that can be called while messages arrive, except the setters *)
Definition others (k : cls) (o : nat) (down : list code) : list code :=
  register o ::
  match k with
  | Cache => [cache_query o] | TimeSequencer => [seq_dispatch o down] | ExactTime => [exact_register_drop o] | InputAligner => [aligner_dispatch o down]
  | _ => []
  end.
(** add of object [o] with all that it causes downstream, up to [depth] filters away *)
Fixpoint entry (depth : nat) (n : net) (o : nat) : code :=
  match depth with
  | O => Any []
  | S d => match nth_error n o with Some (k, l) => add_of k o (map (entry d n) l) | None => Any [] end
  end.
(** All methods of all filters that threads may call *)
Definition methods (depth : nat) (n : net) : list code :=
  flat_map (fun o => match nth_error n o with
                     | Some (k, l) => entry (S depth) n o :: others k o (map (entry depth n) l)
                     | None => []
                     end) (seq 0 (length n)).

(** ** Executions *)
Inductive instr := Acq (m : mutex) | Rel (m : mutex) | Rd (v : var) | Wr (v : var).
(** the sequences of instructions of a method *)
Inductive trace : code -> list instr -> Prop :=
| T_read v : trace (Reads v) [Rd v]
| T_write v : trace (Writes v) [Wr v]
| T_lock m c t : trace c t -> trace (Lock m c) (Acq m :: t ++ [Rel m])
| T_end cs : trace (Any cs) []
| T_more cs c t u : In c cs -> trace c t -> trace (Any cs) u -> trace (Any cs) (t ++ u).
(** a thread that calls methods of [ms] one after the other *)
Inductive calls (ms : list code) : list instr -> Prop :=
| C_end : calls ms []
| C_more c t u : In c ms -> trace c t -> calls ms u -> calls ms (t ++ u).

(** what the threads still have to do and who holds which mutex *)
Record state := mkState { held_by : mutex -> option nat; rest : list (list instr) }.
(** The mutex gets a new holder or none *)
Definition set_owner (f : mutex -> option nat) (m : mutex) (o : option nat) : mutex -> option nat :=
  fun m' => if mutex_eq_dec m' m then o else f m'.
(** Thread [tid] is scheduled: it waits if the mutex is held by any thread (std::mutex is not recursive) *)
Definition step (tid : nat) (s : state) : state :=
  match nth_error (rest s) tid with
  | Some (Acq m :: r) =>
      match held_by s m with
      | None => mkState (set_owner (held_by s) m (Some tid)) (upd tid r (rest s))
      | Some _ => s
      end
  | Some (Rel m :: r) => mkState (set_owner (held_by s) m None) (upd tid r (rest s))
  | Some (_ :: r) => mkState (held_by s) (upd tid r (rest s))
  | Some [] | None => s
  end.
(** A schedule: the threads in the order in which they make a step *)
Definition exec (sched : list nat) (s : state) : state := fold_left (fun s t => step t s) sched s.
(** All mutexes free *)
Definition start (ts : list (list instr)) : state := mkState (fun _ => None) ts.
