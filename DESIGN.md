# A machine-checked model of ros2/message_filters

Sources: `/repo` (read as text). Model and proofs: `/verif/rocq/theories` (Coq 8.16.1,
standard library; Flocq in the proofs of `LatestDouble_*`). Build: `coq_makefile -f _CoqProject -o Makefile && make -j4`.

Contents: [Organisation](#organisation), [Modelling decisions](#modelling-decisions),
[What is modelled](#what-is-modelled), [Plan per property](#plan-per-property),
[Findings](#findings), [Trusted base](#trusted-base), [Testing the theorems](#testing-the-theorems).

## Organisation

For each component `X` of the library there are up to four kinds of file:

* `X_Model.v`  - executable Gallina functions, one per C++ or Python function, each citing file and lines;
* `X_Spec.v`   - the small independent vocabulary used to state the properties (streams, subsequences,
  "better set", "race" ...); it does not use the model's helper functions;
* `X_Proofs.v` and other files - lemmas and invariants;
* `X_Props.v`  - the theorems named in MANIFEST.json (`Cnn_...`), each with a concrete non-vacuity
  example and `Print Assumptions`.

Shared files: `Base.v` (results, list update), `Trace.v` (subsequences), `RclTime.v` (the part of
rclcpp::Time the code relies on), `PermTac.v` (a permutation tactic).

Theorem names: `_refuted` means that the statement in `properties.jsonl` is false of the code: the theorem
gives the witness. `_partial` means that the theorem proves the property under an extra hypothesis; the
note in MANIFEST.json says what is missing. A property with a `_refuted` theorem against its own statement
has status `partial`.

## Modelling decisions

* A *history* is a finite list of API calls; a filter is `init` plus a total step function. Theorems
  quantify over every list of calls (no bound on length, number of inputs or queue sizes).
* Failures are values: assertion failure, undefined behaviour (empty-deque access, out of range index,
  use after free), C++ exception, deadlock, and fuel exhaustion are distinct results (`Base.err`).
  "Never fails" theorems exclude all of them, so nothing is totalised away silently.
* Loops that are not structurally decreasing carry explicit fuel with an `OutOfFuel` result; theorems
  show that the fuel computed from the state always suffices, so termination of the real loop follows.
* Messages are abstract: an arbitrary type `E` with a stamp function. Nothing depends on message
  content, so theorems are parametric in it. Two different messages may have equal stamps.
* Stamps of header messages are `Z` nanoseconds. `RclTime.v` models `rclcpp::Time` (ns + clock source,
  comparison of different clock sources throws) and shows that header stamps always have the ROS clock
  source and stay inside int64. Where different clock sources can meet (Cache queries, TimeSequencer,
  LatestTime) the clock source is modelled explicitly.
* The filters compute with unbounded integers, except in `Time64`, where sums, differences and products
  that are no 64-bit integers throw; C98 shows that for moderate parameters there is no difference.
* A mutex-protected member function is one atomic step; `Sched_*.v` justifies this for every schedule, and
  `Race_*.v` shows which methods are free of data races, so that sequential consistency may be assumed.
* Callbacks supplied by the user are observers (their invocations are the output trace), except where
  what they do matters: they mutate messages in `Event`, call back into the filter or throw in `Signal`,
  raise in `Py`, throw in `Throw`.
* Reading a stamp does not fail, except in `Stamp`, where it may for every message.

## What is modelled

| Code | Model | Not modelled |
|---|---|---|
| `signal1.hpp`, `signal9.hpp`, `connection.hpp/.cpp`, `simple_filter.hpp` (registerCallback, signalMessage) | `Signal_Model.v`, `Conn_Model.v`, `Event_Model.v` (parameters, forced copies), `Net_Model.v` (wiring), `Dtor_Model.v` (destruction in one thread, signals in others), `Reent_Model.v` (callbacks that call their filter) | setName/getName; the overload resolution of registerCallback (all overloads build the same helper) |
| `message_event.hpp`, `parameter_adapter.hpp` | `Event_Model.v` (message, copy, receipt time, copy flag), `Keep_Model.v` (kept messages), `Order_Model.v` (comparison operators), `CopyFail_Model.v` (null messages, message factories, failing copies), `EventThr_Model.v` (threads) | |
| `message_traits.hpp` | `RclTime.v` (TimeStamp with and without header), `Stamp_Model.v` (stamps that cannot be read) | FrameId, HasHeader (compile-time selection) |
| `cache.hpp` | `Cache_Model.v`, `CacheInt_Model.v` (machine integers); wiring in `Net_Model.v`; locking in `Sched_Model.v`, `Race_Model.v` | |
| `time_sequencer.hpp` | `Seq_Model.v`; wiring, locking as above; `Timer_Model.v` (life of the timer) | when the timer is due (a tick is an operation) |
| `input_aligner.hpp` | `Aligner_Model.v`; wiring, locking as above; `AlignBack_Model.v` (callbacks that set periods), `Timer_Model.v` (life of the timer) | when the dispatch timer is due |
| `pass_through.hpp`, `chain.hpp` | `Net_Model.v`, `Event_Model.v`, `Own_Model.v` (destruction of a chain with its filters) | the typed and untyped variants of addFilter/getFilter are one |
| `synchronizer.hpp`, `time_synchronizer.hpp` | `Net_Model.v` (inputs and slots), `Copy_Model.v` (construction from a policy), policies below; `TimeSynchronizer` is `Synchronizer<ExactTime>` | setName/getName |
| `sync_policies/exact_time.hpp` | `Exact_Model.v` | registerDropCallback's overloads (one drop trace) |
| `sync_policies/approximate_epsilon_time.hpp` | `Eps_Model.v` | |
| `sync_policies/approximate_time.hpp` | `Approx_Model.v` with the age-penalty arithmetic as a parameter; instance: long double (`ApproxScale_Model.v`); setters called between messages (`ApproxSet_Model.v`) or in callbacks (`SetBack_Model.v`) | log texts |
| `sync_policies/latest_time.hpp` | `Latest_Model.v` with the double operations as parameters; instances: exact rationals (`Latest_Steady.v`, `LatestRate_Props.v`), binary64 (`LatestDouble_Model.v`); callbacks that reconfigure (`LatestBack_Model.v`) | |
| `subscriber.hpp` | `Sub_Model.v` | rclcpp itself (a subscription request is accepted or refused arbitrarily); the lifecycle-node variants are the same code |
| `src/message_filters/__init__.py` | `Py_Model.v`, `PyRe_Model.v` (connectInput called again), `PyFilter_Model.v` (SimpleFilter), `PySub_Model.v` (Subscriber), `Sched_Model.v` (Cache without lock) | Subscriber.__getattr__, logging, stamps of different clocks |
| `visibility_control.hpp`, `null_types.hpp`, the `.h` forwarding headers | no behaviour | |

## Plan per property

Signals and events
* C01, C02, C69, C70 `Signal`: list-of-helpers model of Signal1/Connection; refinement to "registered and not
  disconnected callbacks, in registration order", by induction over histories. Callbacks may throw or call
  back; the mutex is not recursive, so C69 is refuted.
* C03, C04, C05, C71 `Event`: heap model (address -> content) with the parameter forms of
  ParameterAdapter and arbitrary mutations; non-interference by induction over the callback tree.
  C04 is false of the code (signal9.hpp:69-76); it is refuted, plus the part that does hold.

Cache (`Cache`), C06-C15: list model with clock sources; sortedness/bound/clock-uniformity invariant by
induction over histories; queries characterised completely on sorted lists. C14 is refuted.

ExactTime (`Exact`), C16-C21: finite map from stamp to partial tuple as a sorted association list.
C16, C18, C19 by invariants over all histories; C17, C20, C21 through a declarative description of
the output for strictly increasing inputs.

ApproximateEpsilonTime (`Eps`), C22-C26, C63: vector-of-queues model, process loop with fuel. C26 is false
for three inputs (refuted with a concrete history), proved for two and for separated groups.

ApproximateTime (`Approx`), C27-C34, C60-C62: the full algorithm (deque/past/candidate/pivot/virtual moves,
queue overflow recovery). Strong state invariant for C27-C29; telescoping potential for C30;
ghost "consumed prefix" invariant and a declarative characterisation of the k-th output set for C31-C33, C60.
The theorems allow the scaled durations to be rounded (hypothesis `scaling tol`); `ApproxScale_Props.v` shows that
`rclcpp::Duration::operator*` in long double meets it with a quarter of a nanosecond.
C61 (copies) and C62 (warnings) are false in part.

LatestTime (`Latest`), C35-C38, C64-C68: floating point operations abstract, clock readings arbitrary. C36,
C38, C64, C65 are false of the code; refuted, with the guarded positive theorems. C67, C68 over exact rationals, and in
binary64 (`LatestDouble`), where they hold up to rounding only; C37, C66 and C91 also in binary64. The doubles are the
executable ones of Coq.Floats.SpecFloat; Flocq relates them to real numbers in the proofs.

TimeSequencer (`Seq`), C39-C43: multiset as stable sorted list, explicit clock sources. C42 (erase by key) and
C43 (clock source mismatch throws) are refuted, with the guarded positive theorems.

InputAligner (`Aligner`), C44-C48: per-input multisets, activity flags, periods; dispatch loop with fuel.

Networks (`Net`), C49-C53, C72, C73: a graph of filters with callback lists, held connections, destructors;
delivery to a destroyed node is UB, taking a held mutex again is a deadlock. C51, C52, C72 are false in part.

Subscriber (`Sub`), C54, C74-C76: state machine over all overloads, with shared pointers to nodes and
subscriptions held by users.

Python (`Py`, `PyCache_Props.v`, `PySync_*`), C55-C57, C77-C79: dict/list models; exceptions leave the lock held.

Concurrency, C58, C59, C80, C81 `Sched`: threads whose programs are sequences of critical sections, arbitrary
schedules; linearisation order = order of lock acquisition. C82, C83 `Race`: the accesses and mutexes of every
method, networks of any shape; races excluded by a lock discipline, deadlocks by a rank of mutexes.
C84 `Conn`: one signal, threads that emit, register and disconnect, callbacks with a beginning and an end;
invariant over the trace of observable events. C85 `Ctor`: a constructor as a list of connections and member
initialisations, interleaved with arriving messages; refuted for constructors that connect first.
C86 `PyFilter`: the Python SimpleFilter, on its own with callbacks that register and raise, and step by step with
several threads; refuted in part.
C89 `Order`: the comparison operators of events, over any total order of addresses and both outcomes of comparing times.
C90 `Copy`: programs over policy objects and synchronizers, generic in the policy; the lineage of every object is read
off the program. Refuted in part.
C87, C88 `Throw`: the functions that call callbacks, left at the call by an exception, for every choice of throwing
calls; invariants weakened to what an interrupted call leaves behind. C88 is refuted except for Cache and LatestTime.
C92 to C96 `Stamp`: the functions that read stamps, left at the first stamp that cannot be read (`stamp : E -> option`).
For ExactTime, InputAligner and TimeSequencer a simulation by the run without the invalid messages; for the
approximate policies invariants over every state an interrupted call leaves behind. C92, C94, C95 are refuted in part.
C97 `ApproxSet`: the setters of ApproximateTime as further calls; the invariants of `Approx` do not depend on the
parameters, spans by an invariant on the latest queue front, optimality restarts from every state without a search.
C98, C99 `Time64`: the functions that do time arithmetic with the throwing 64-bit operations of rclcpp; equal to the
unbounded ones on every state that satisfies range invariants. C99 is refuted.

C100 `E2E`: composition of the network model (what reaches the inputs of a synchronizer, C53) with the models of the policies.
The set the policy makes of what the network gives to its inputs is the definition of the output (synchronizer.hpp:170-174).
LatestTime is not composed: its sets depend on the times of arrival, which the network model does not have.

C101 `PyRe`: the Python synchronizers with the dicts of former calls of connectInput; simulation by a new synchronizer fed by
the new filters alone, using that nothing deliverable ever waits (C78, C79). Refuted for messages that raise, and for Cache.

C102 `Throw` (Throw_Reach): every function that calls callbacks, composed by how many calls precede; `reaches` relates the oracle,
the callbacks called and the exception leaving the call.

C103, C104 `EpsOrder`: a relation `read` that consumes the input streams (not the arrival order): discard what is too old for
the newest head, output when every head is within epsilon. It is deterministic and the policy's queues are always suffixes of it.
C105 `ExactBound`: the tuple of a stamp survives as long as fewer than q later keys are pending; keys are stamps received.

C106 `Drop`: Event_Model's parameter forms for tuples with default-constructed events, composed with `Exact` (every dropped set
has a hole). Refuted for the forms that dereference or copy.

C107 `SeqTime`: delivered ++ queued is the stable sort of what was added, by induction over the history; `waiting` (a fold over
the history) bounds the queue. Stable sorts are unique, hence independence of the arrival order. System-clock stamps (see C43).

C108, C109 `AlignMerge`: the streams forwarded and queued are the streams added; an idle input is always active and expected not
before anything forwarded, so std::min_element yields the merge. Merges are unique, hence independence of the interleaving.
C109 follows from the stopping condition of the loop (C47).
C110 `ApproxGroups`: the sets are those of C32 and C60. Within one group spans are at most w and across groups more, so a set
within the maximum interval is a group; the first admissible set is the first complete group. Without a maximum interval the heads
are one group and every later set ends more than w later, which no later start makes up for. Invariant: the positions not yet
used are those of the groups from some number on.
C111 `Merged`: in-order arrival. ExactTime: nothing later has been seen when a set is completed, so C105 applies with q = 1.
ApproximateEpsilonTime: invariant that a message whose group may still be completed is queued; overflow keeps the newest message
and only the newest message of an input can belong to an open group. ApproximateTime: induction over the history, C110 for the
prefix gives as many outputs as groups all inputs are past, so the backlog is at most the lag plus one (C33). Composed with C108.

C112 `Dtor`: threads that signal and one that destroys; the mutex of Signal1 is held during callbacks and by removeCallback.
Invariant: a call in progress on an upstream filter holds the mutex and has only registered inputs left, so the disconnect that
precedes the end of the filter has waited for it. Exact: a destructor is safe iff it disconnects every input and stops the timer.

C113 `Own`: the destructor of Chain on states of `Net` reached by any program: element by element, passthrough before filter.
A filter of a chain is connected to the passthrough before it only (C49's invariants), so it is the order that decides.

C114 `Reent`: the methods of the existing models as atomic bodies, callbacks as interactive programs, two mutexes (the filter's,
held or not while signalling, and the signal's, always held). By induction on programs, what returns is a serial history.

C115 `Keep`: events and message objects of `Event`, all events ever received are kept and may be signalled again at any time;
invariant: rights to write that callbacks were given are never to objects of kept events. This justifies messages being
values in the models of the filters.

C116 `CacheInt`: the queries of `Cache` with 32 bit `int` indices, wrap-around of conversions and overflow as undefined behaviour; equal to
the queries of `Cache_Model` while the sizes set are at most INT_MAX (loop by loop, then by induction over histories).

C117 `CopyFail`: MessageEvent with null messages, and with factories and copies that may throw (what they do is given with each call); events
are related to the message they were made from by what the calls returned; signals through networks by induction over the network.

C118 `EventThr`: the memory accesses of getMessage as steps of any number of threads; invariants over all schedules.

C119 `SeqLate`: `Seq_Model` with times of calls; promptness and rate of arrival imply the assumptions of C107.

C120 `SetBack`: `Approx_Model.process` and `add` with the parameters as state and a callback, called after each published set, that
calls the setters of `ApproxSet_Model`.

C121 `AlignBack`: `Aligner_Model.dispatch_first` with a callback called between setting last_out_ts_ and popFirst; the callback sees the
status of all inputs and calls setInputPeriod. The invariant of `Aligner_Proofs` is parametric in how the state before an addition
was reached.

C122 `LatestBack`: `Latest_Model.add` followed by a callback that sets rate_configs_ and ros_clock_. A run with callbacks is mapped to
a run of `Latest_Model` without them: two states that differ in their configurations only behave alike once every input has a message.

C123 `Timer`: the references to a timer and the steps of executors, interleaved with the steps of the destructors. Refines the
assumption of C112 that a timer that is released is not started any more.

C124 `PySub`: Python's binding of positional and keyword arguments to the parameters of create_subscription; messages by `PyFilter_Model`.

## Findings

Statements of the property list that are false of the code (theorems `..._refuted` and others):

1. `TimeSequencer` throws on every message with a header: `last_time_` is a system-clock time (C43). It erases
   by key on overflow, so all messages with the oldest stamp are lost (C42).
2. `LatestTime` indexes `rates_` by input although rates are appended in the order in which inputs start: out
   of bounds (C36), configurations reach the wrong input (C64). Configurations are lost when the
   policy is copied into a `Synchronizer` (C38). A clock of another source makes `add` throw or silences it (C65).
3. `Signal9` builds events that demand copies and then passes the original ones: callbacks of synchronizers
   are not isolated (C04). A copy of a `MessageEvent<M>` shares the source's private copy (C05).
4. Callbacks that use the filter calling them deadlock (C69); a throwing callback hides the message from the
   callbacks registered later (C70).
5. `Cache(0)` leaves the size indeterminate (C14). `Cache` evicts the oldest stamp, not the oldest arrival (C08).
   `Cache::connectInput` leaves the old connection in place (C51). It forwards outside its lock, so with
   several sources the forwarding order may differ from the insertion order (C59). `setCacheSize` takes no lock (C82).
6. `PassThrough` and `Chain` do not disconnect on destruction (C52); a `Connection` used after its upstream
   filter was destroyed is a use after free (C72); a `Chain` that contains itself recurses for ever, filters
   connected in a cycle deadlock (C73, C83).
7. `ApproximateEpsilonTime` with a negative epsilon loops for ever (C25) and discards usable messages
   with three or more inputs (C26).
8. `ApproximateTime`: copying drops the candidate, null messages are published (C61); the warning branch that
   compares with `past_` is dead code, violations go unreported (C62). Setters take no lock (C82).
9. `InputAligner` with a very negative timeout does not terminate (C47); `setInputPeriod` and
   `getQueueStatus` take no lock (C82).
10. `Subscriber`: a pointer from `getSubscriber` keeps the old subscription alive and calling a destroyed
    Subscriber (C54, C74); overloads without options and all constructors keep only the node's address (C75);
    subscribing with an empty topic replaces the node (C76).
11. Python `Cache` is not sorted, `getLast` is wrong with equal stamps (C57), is not thread-safe (C81); the Python
    synchronizers keep their lock after an exception (C77); with `slop=0` nothing matches (C79).
12. Several threads dispatching one `TimeSequencer` can reorder messages (C80).
13. A `Synchronizer` constructed with its filters connects them before `init()` has set the policy's `parent_`:
    a message that arrives meanwhile fails an assertion or uses the null pointer (C85). The Python classes
    register their callbacks before their attributes exist (C85).
14. The Python `SimpleFilter` raises when a callback, or another thread, registers a callback during a signal, and
    two threads that register can get the same connection, which loses one of the callbacks (C86).
15. Callbacks that throw (C88): the `TimeSequencer` loses the rest of the tick; `InputAligner`, `ExactTime` and
    `ApproximateEpsilonTime` deliver the messages again; the queues of `ExactTime` (drop callbacks),
    `ApproximateEpsilonTime` and `ApproximateTime` exceed their size without bound; `ApproximateTime` can stop
    delivering until a queue overflows.
16. The comparison operators of `MessageEvent` are not const, so that events cannot be keys of std::set or std::map.
    A copy of a `MessageEvent<M>` that demands copies is not equal to its source (C89).
17. Copying an `ApproximateEpsilonTime` that holds messages leaves `number_of_non_empty_events_` behind: the copy may
    never output anything (C90). Copying an `ExactTime` leaves the drop callbacks behind: callbacks registered on a
    policy before the `Synchronizer` is constructed from it are never called. `operator=` also assigns `parent_`:
    assigning to the policy of a synchronizer cuts it off from its callbacks (C90).
18. `ApproximateTime` scales durations in long double, which can round up across a whole nanosecond: a set that is
    better by less than a quarter of a nanosecond can be missed (C31). The error does not add up over replaced
    candidates, and the output stays independent of the arrival order.

19. `LatestTime`: with strictly periodic messages the error estimate becomes zero, and the rounding error of the smoothed
    rate (for 33 ms, 24 frames per second, and about a fifth of all periods) then counts as a step change at every
    other message. Inputs of the same period swap places and every other set is lost, or an input is found late at the
    instant its message is due and an additional set is output (C67). Smoothing factors are not checked: a NaN breaks
    the order by which inputs are sorted (C91).
20. A message with negative seconds in its header (`rclcpp::Time` throws): `Cache` has by then evicted the oldest message
    of a full cache (C92). `ApproximateTime` and `ApproximateEpsilonTime` store the message before they read its stamp.
    If it is at the front of a queue when all inputs have a message, `ApproximateEpsilonTime` throws from every later
    call and outputs nothing ever again, and `ApproximateTime` outputs nothing ever again unless a search was under way (C94).
    The queues then grow without bound, in `ApproximateTime` already if one input delivers such messages only (C95).
21. `ApproximateTime`: a maximum interval set while a search is under way does not apply to the set that search outputs
    (C97). (That the setters take no lock is part of C82.)
22. The largest duration cannot be used for "no limit": with such an epsilon `ApproximateEpsilonTime` throws whenever all
    inputs have a message and never outputs anything; as period of an `InputAligner`, delay of a `TimeSequencer` or lower
    bound of `ApproximateTime` it makes them throw; so does an age penalty of a million with messages three hours
    apart (C99). (As maximum interval, where it is the default, and as timeout it can be used.)
23. Python: a filter never forgets a callback, so the filters a `TimeSynchronizer` was connected to before go on calling
    `add`. They contribute nothing to the sets, but one message without a header from one of them blocks the synchronizer
    for ever, and a `Cache` connected again caches the messages of both filters (C101).
24. Every set given to drop callbacks of `ExactTime` has a missing message, passed as a null pointer; callbacks that take a
    message by value or reference dereference it, and those that take it non-const fail `assert(create_)` (C106).
25. Destruction while other threads are active (C112): `PassThrough` (and a `Chain`) can be used by a signalling thread after it
    is gone. `TimeSequencer` and `InputAligner` stop their timer, but nothing waits for a timer callback that another thread of
    a multi-threaded executor is running.
26. A `Chain` that owns its filters, as in the documented use with `std::make_shared`: its vector destroys (with libstdc++) the
    first elements first, and the destructor of a `Cache` or `TimeSequencer` at the second place or later disconnects from the
    passthrough that has just been destroyed (C113).
27. A callback of a `TimeSequencer` that adds to it (which does not block): `last_time_` is already the stamp of the last message
    of the tick, so a message newer than all that have been delivered is dropped if the same tick goes on to newer ones. Adding
    to a `Cache`, an `InputAligner` or a `Synchronizer` from its own callback blocks for ever (C114).
28. An event made with `nonconst_need_copy = false` that passes a `Cache` on its way to a single mutable callback: the callback
    writes to the object stored in the cache and can put the cache out of order. Events made from a message pointer are safe (C115).
29. The indices of the cache queries are `int` while the size is `unsigned int`: with more than INT_MAX messages the queries
    read outside the deque or find nothing (C116). Only of theoretical interest, since the messages have to fit into memory.
30. `copyMessageIfNecessary` sets `message_copy_` before it copies the message into it. If the copy throws, the next `getMessage` returns
    the incomplete copy (C117). Callbacks are not affected, the events made for them do not outlive the call.
31. `getMessage` of a `MessageEvent<M>` is const but writes `message_copy_` without synchronisation: an event of this type must not be
    used by two threads at the same time (C118). `MessageEvent<M const>` is safe.
32. Sizing a TimeSequencer's queue for the messages that arrive within the delay is not enough; messages due wait for the next tick, so
    those of one update period come on top (C119).
33. `setRateConfig` and `setRateConfigPerMessage` of a LatestTime policy are silently without effect for every input that has already
    received a message (C122).
34. `~InputAligner` does not cancel the dispatch timer. An executor that has found the timer ready but not yet called it can call the
    destroyed filter; in `~TimeSequencer`, which cancels, only a callback that is already running can (C123).
35. The Python Subscriber "takes identical arguments as rclpy.Subscriber", but a QoS profile given by position, or the topic given by
    keyword, raises an exception (C124).

## Trusted base

* Coq 8.16.1 kernel (and `coqc`; `vm_compute` is used to evaluate concrete examples and witnesses).
* Axioms: none of our own. `Print Assumptions` answers "Closed under the global context" for every theorem named in
  MANIFEST.json (the commands stand beside the theorems in the `_Props.v` files), except for the theorems about doubles
  (`LatestDouble_Props.v`: C37_latest_double_*, C66_latest_double_pivot, C67_latest_double_periodic(_partial),
  C67_latest_double_every_other, C68_latest_double_estimate_partial, C91_latest_estimates_are_numbers), which rest on the
  axioms of the standard library's real numbers: ClassicalDedekindReals.sig_not_dec, ClassicalDedekindReals.sig_forall_dec,
  FunctionalExtensionality.functional_extensionality_dep, Classical_Prop.classic. The refutations for doubles are
  computations and need none. The checker also lists constants of the
  standard library that belong to opaque modules sealed by a module type and are not axioms of any theorem:
  Coq.ssr.ssrunder.Under_rel.{Over_rel, Under_rel_from_rel, over_rel, over_rel_done, Under_rel, Under_relE,
  under_rel_done} (used by none), and the definition of the real numbers,
  Coq.Reals.Rdefinitions.RbaseSymbolsImpl.{R, Rabst, Rrepr, Rquot1, Rquot2, R0, R1, Rplus, Rmult, Ropp, Rlt, R0_def, R1_def,
  Rplus_def, Rmult_def, Ropp_def, Rlt_def} and Coq.Reals.Rdefinitions.RinvImpl.{Rinv, Rinv_def}.
* The correspondence between `/repo` and the `_Model.v` files (by inspection; every definition cites the
  lines it models) and the modelling decisions above.
* Behaviour assumed of code outside the repository: `std::deque/vector/map/multiset/stable_sort`
  as in the C++ standard; `std::mutex` is not recursive; `rclcpp::Time` comparison and arithmetic (throws on
  different clock sources); `rclcpp::Duration::operator*` as described in `ApproxScale_Model.v`, `Duration::seconds()` as in `LatestDouble_Model.v`; `double` is
  IEEE 754 binary64, rounding to nearest, without fused multiply-add or extended precision; `rclcpp::Clock` may return anything; Python dict, list and sorted as documented;
  memory is sequentially consistent for programs without data races.

## Testing the theorems

`tools/mutate.py` applies an edit to a scratch copy of the model and rebuilds everything; `seeded/LOG.jsonl`
has one line per edit with the theorems that failed and the theorems that were tightened because they did not.
