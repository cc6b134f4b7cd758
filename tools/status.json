{
 "C08": {
  "status": "proved",
  "note": "Proved as stated (last N for ordered arrivals; exact eviction for any order). The stronger reading 'most recent N for any arrival order' is refuted by C08_most_recent_n_refuted."
 },
 "C14": {
  "status": "partial",
  "note": "The claim is false of the code (indeterminate cache_size_): C14_cache_size_zero_refuted. What holds is C14_cache_usable_once_sized."
 },
 "C20": {
  "status": "proved",
  "note": "Proved under the stated premise; C20_time_order_for_late_messages_refuted shows the premise is needed."
 },
 "C26": {
  "status": "partial",
  "note": "False as stated from three inputs on (C26_eps_discards_only_unusable_refuted). Proved for two inputs, and for any number of inputs whose messages fall into groups more than epsilon apart (C26_eps_discards_only_unusable_partial)."
 },
 "C42": {
  "status": "partial",
  "note": "False with equal stamps: the overflow erases by key (C42_seq_keeps_newest_refuted). Proved: the bound, the exact eviction (all messages with the oldest stamp), and for distinct stamps that the newest q are kept (C42_seq_keeps_newest_partial)."
 },
 "C43": {
  "status": "partial",
  "note": "False: every addition of a message with a header throws, because last_time_ is a system-clock time (C43_seq_header_stamps_refuted). With system-clock stamps nothing ever throws (C43_seq_system_stamps_never_fail_partial)."
 },
 "C61": {
  "status": "partial",
  "note": "False for copies made while a search is in progress: candidate_ is not copied and nulls are published (C61_approx_copy_anytime_refuted). Proved for copies made while no candidate is pending, in particular before use (C61_approx_copy_idle)."
 },
 "C62": {
  "status": "partial",
  "note": "Soundness proved; completeness is false (C62_approx_warning_complete_refuted), the branch comparing with past_ is unreachable because the check is skipped for an empty deque."
 },
 "C31": {
  "status": "proved",
  "note": "For every arithmetic that rounds up by at most tol (hypothesis scaling); scale_long_double, the arithmetic of rclcpp::Duration::operator*, meets it with a quarter of a nanosecond (C31_approx_long_double). Optimality without any tolerance is refuted for it (C31_approx_exactly_optimal_refuted)."
 },
 "C30": {
  "status": "proved",
  "note": "Assumes the age-penalty scaling is monotone truncating multiplication by num/den >= 1 (hypothesis scaling, met by scale_by)."
 },
 "C36": {
  "status": "partial",
  "note": "False in general: two messages on a later input before enough inputs have started read rates_ out of bounds (C36_latest_memory_safe_refuted). C36_latest_memory_safe_iff characterises the safe histories exactly; in-order starts and all-once-first are safe."
 },
 "C37": {
  "status": "proved",
  "note": "Termination for every float behaviour; the stalled-clock part assumes fle (fsecs z) 0 agrees with z <= 0, met by exact arithmetic (C37_nonvacuous) and by binary64 (C37_latest_double_clock_test, C37_latest_double_stalled_clock_is_quiet)."
 },
 "C38": {
  "status": "partial",
  "note": "False: the copy does not carry rate_configs_ (C38_latest_config_survives_copy_refuted). Proved for configuration set on the policy in use, with inputs starting in index order."
 },
 "C64": {
  "status": "partial",
  "note": "False when inputs do not start in index order (C64_latest_config_per_input_refuted); proved for in-order starts."
 },
 "C65": {
  "status": "partial",
  "note": "False: an addition can throw (C65_latest_clock_change_refuted), and once every input has started nothing is output after the change (C65_latest_clock_change_silences). Proved: one clock source never throws."
 },
 "C67": {
  "status": "partial",
  "note": "False in binary64 (C67_latest_double_periodic_refuted): with equal periods that smoothing does not reproduce exactly, every other set is lost (C67_latest_double_every_other). C67_latest_double_periodic says for all periods which messages trigger outputs; the property follows if equal periods are settled and no message is handled at the instant another one is due (C67_latest_double_periodic_partial), and in exact arithmetic (C67_latest_periodic_inputs_exact_partial)."
 },
 "C68": {
  "status": "partial",
  "note": "False to the last bit in binary64 (C68_latest_double_estimate_refuted); true up to a relative error of 2^-50/alpha for alpha >= 2^-48 (C68_latest_double_estimate_partial, without the error estimate), and in exact arithmetic (C68_..._exact_partial)."
 },
 "C69": {
  "status": "partial",
  "note": "False: call() holds a non-recursive mutex while callbacks run (C69_reentrant_use_refuted); C69_reentrant_use_deadlocks shows that every use of the calling filter deadlocks."
 },
 "C70": {
  "status": "proved",
  "note": "The stronger reading 'the remaining callbacks are still called' is refuted by C70_all_called_despite_throw_refuted."
 },
 "C04": {
  "status": "partial",
  "note": "False: signal9.hpp builds events demanding copies and then passes the original ones (C04_sync_isolated_refuted). Proved when every event already demands copies (messages added as shared_ptr, or received by a Subscriber): C04_sync_isolated_partial."
 },
 "C05": {
  "status": "partial",
  "note": "Same object, copied once, original otherwise and metadata proved for every program. 'Copying never shares the private copy' is false for copies of MessageEvent<M> (C05_copies_never_shared_refuted) and proved when the copied events are MessageEvent<M const> (C05_private_contents_partial, C05_original_kept_partial)."
 },
 "C49": {
  "status": "proved",
  "note": "Networks of any filters built by any program (Net_Model). The filters of the chain must not be fed from outside during the part of the program considered; C49_chain_traversal needs no assumption on what filters compute."
 },
 "C50": {
  "status": "proved",
  "note": ""
 },
 "C51": {
  "status": "partial",
  "note": "False for Cache, whose connectInput leaves the old connection (C51_cache_keeps_old_input_refuted). Proved for every other kind after any history, and for every kind connected once."
 },
 "C52": {
  "status": "partial",
  "note": "False for PassThrough and Chain (no disconnect on destruction), for a Cache connected twice, and for filters whose chain is destroyed (C52_*_refuted). Proved when every destroyed filter disconnects in its destructor, lost no connection and belongs to no chain."
 },
 "C53": {
  "status": "proved",
  "note": "Between two connectInput calls, with any number of inputs; also slots without filter receive nothing."
 },
 "C72": {
  "status": "partial",
  "note": "False: destroying an upstream filter, or the chain a filter was added to, before the filter connected to it is a use after free (C72_*_refuted). Proved for a filter destroyed while everything it was ever connected to exists."
 },
 "C73": {
  "status": "proved",
  "note": "Levels decreasing along connections express the absence of cycles. With cycles: C73_loop_deadlocks, C73_chain_in_itself_recurses."
 },
 "C54": {
  "status": "partial",
  "note": "Proved for users who keep no pointer from getSubscriber (also: never two subscriptions in the middle of a call, refused requests, getTopic). False otherwise: such a pointer keeps the old subscription delivering (C54_user_pointer_refuted, C54_two_subscriptions_refuted); C54_only_held_remain says nothing else remains."
 },
 "C74": {
  "status": "partial",
  "note": "Proved for users who keep no pointer from getSubscriber; false otherwise (C74_user_pointer_refuted)."
 },
 "C75": {
  "status": "partial",
  "note": "Proved for the subscribe overloads with a shared pointer and options. False for the overloads without options and for all constructors, which keep only the address (C75_*_refuted)."
 },
 "C76": {
  "status": "partial",
  "note": "Proved unless subscribe is called with a shared pointer, options and an empty topic: that call unsubscribes but still replaces the node (C76_empty_topic_refuted)."
 },
 "C57": {
  "status": "partial",
  "note": "Contents, forwarding and getInterval are proved for every history. getElemAfterTime/getElemBeforeTime are proved with respect to arrival order always, and with respect to time for histories in stamp order; oldest/latest times and getLast likewise. C57_out_of_order_refuted and C57_last_refuted show the time-ordered claims are false of the code in general."
 },
 "C55": {
  "status": "proved",
  "note": "Every history, number of inputs and set of raising callbacks."
 },
 "C56": {
  "status": "proved",
  "note": "Every history, slop, queue_size and set of raising callbacks. C79_zero_slop: with slop 0 nothing is delivered."
 },
 "C77": {
  "status": "partial",
  "note": "Refuted: C77_exact_blocks and C77_approx_blocks show that after any exception inside the lock every later call blocks for ever (witnesses C77_refuted, C77_no_header_refuted, C77_negative_size_refuted). Proved: while no call has raised every call returns, and no call raises with well-behaved callbacks, stamped messages and a non-negative queue_size."
 },
 "C78": {
  "status": "proved",
  "note": "Equality with an independent rendezvous table for every history that fits; drops characterised for every history."
 },
 "C79": {
  "status": "proved",
  "note": "Completeness is stated for histories in which no message has to be dropped (distinct stamps, at most queue_size per input); nothing_waits, closest and dropped hold for every history."
 },
 "C58": {
  "status": "proved",
  "note": "Methods that hold their mutex throughout; instances for the four policies and InputAligner. Memory is sequentially consistent. Callbacks that call back into the object are C69/C73."
 },
 "C59": {
  "status": "partial",
  "note": "Exactly once, per-thread order and sequential contents are proved for every schedule; forwarding in insertion order is refuted for several sources and proved for one input filter."
 },
 "C80": {
  "status": "partial",
  "note": "Exactly once for every schedule and in order with one dispatching thread are proved (system-clock stamps); with several dispatching threads the order is refuted."
 },
 "C81": {
  "status": "partial",
  "note": "Refuted: two threads can swap times and messages and can empty the cache. Proved for a single adding thread."
 },
 "C82": {
  "status": "partial",
  "note": "Proved for every acyclic network and every schedule for adding, dispatching, querying, registering and disconnecting. The setters (Cache::setCacheSize, the ApproximateTime and LatestTime setters, InputAligner::setInputPeriod) and getQueueStatus take no mutex: refuted."
 },
 "C83": {
  "status": "proved",
  "note": "Every acyclic network; user callbacks that call back into the filters are C69/C73. C83_cycle_refuted shows that the hypothesis is needed."
 },
 "C84": {
  "status": "proved",
  "note": "for every schedule of threads that emit, register and disconnect on one signal; a callback that itself registers or disconnects is the subject of the deadlock properties"
 },
 "C85": {
  "status": "partial",
  "note": "false of the code for Synchronizer constructed with its filters and for the Python classes: they connect their inputs before parent_, or the attributes, are set (refuted); proved for every filter that connects its inputs last, such as TimeSynchronizer, and for every constructor if nothing arrives before it has returned"
 },
 "C86": {
  "status": "partial",
  "note": "proved for one thread and callbacks that register nothing, and for threads that only signal; false of the code if a callback registers a callback, if two threads register, or if one registers while another signals (refuted)"
 },
 "C87": {
  "status": "proved",
  "note": "TimeSequencer, InputAligner, ExactTime, ApproximateEpsilonTime and ApproximateTime; Cache and LatestTime are C88. The models with exceptions equal those without when nothing is thrown (C87_*_no_exceptions)."
 },
 "C88": {
  "status": "partial",
  "note": "proved for Cache and LatestTime; false of the code for the others (refuted): TimeSequencer loses the rest of the tick, InputAligner, ExactTime and ApproximateEpsilonTime deliver again, the queues of ExactTime, ApproximateEpsilonTime and ApproximateTime exceed their size without bound, and ApproximateTime can stop until a queue overflows."
 },
 "C89": {
  "status": "partial",
  "note": "the comparison operators are proved without conditions; that a copy equals its source is proved for const events and events that demand no copies (C89_copy_equal_partial, C89_stable) and false of the code otherwise: copying a MessageEvent<M> that demands copies copies the message (C89_copy_equal_refuted)."
 },
 "C90": {
  "status": "partial",
  "note": "ExactTime: proved for copies at any time. ApproximateEpsilonTime: proved for policies not used before, refuted for policies in use (the copy never outputs anything). ApproximateTime: proved for copies outside a search, see C61. Refuted: drop callbacks are not copied, assignment to the policy of a synchronizer cuts it off from its callbacks. LatestTime: C38."
 },
 "C66": {
  "status": "proved",
  "note": "For every arithmetic whose comparison orders the rates; for binary64 this is proved (C66_latest_double_pivot)."
 },
 "C91": {
  "status": "proved",
  "note": "In binary64 without fused operations. C91_latest_nan_config_not_sorted shows that the range of the configuration matters: it is not checked."
 },
 "C92": {
  "status": "partial",
  "note": "proved for ExactTime, InputAligner and TimeSequencer; Cache: a full cache loses its oldest message (C92_cache_refuses_partial, refuted in full); ApproximateTime and ApproximateEpsilonTime accept and keep the message (refuted)."
 },
 "C93": {
  "status": "proved",
  "note": "Cache, TimeSequencer, InputAligner, ExactTime, ApproximateEpsilonTime, ApproximateTime; LatestTime and Chain read no stamps."
 },
 "C94": {
  "status": "partial",
  "note": "proved for ExactTime; false of ApproximateTime and ApproximateEpsilonTime (refuted): the *_blocked_forever theorems give histories after which nothing is ever output."
 },
 "C95": {
  "status": "partial",
  "note": "proved for ExactTime and Cache; false of ApproximateTime and ApproximateEpsilonTime: the *_bounded_refuted theorems show that everything is held, whatever the queue size. The InputAligner has no bound on its queues without them."
 },
 "C96": {
  "status": "proved",
  "note": "ApproximateTime and ApproximateEpsilonTime; for the others C92 says more."
 },
 "C97": {
  "status": "proved",
  "note": "C97_current_max_interval_refuted shows that a maximum interval lowered during a search does not apply to the set found by that search; the statement therefore speaks of the largest one."
 },
 "C99": {
  "status": "partial",
  "note": "False of the code: the largest duration as epsilon, period, delay or lower bound, or a large age penalty, makes the filter throw. With such an epsilon ApproximateEpsilonTime never outputs anything. What holds for bounded parameters is C98."
 },
 "C101": {
  "status": "partial",
  "note": "Proved for both synchronizers: former filters never contribute to a set, and the new filters get the results of a new synchronizer; for TimeSynchronizer only if the former filters' messages have stamps: one without blocks it for ever (C101_former_input_refuted). False of Cache (C101_cache_refuted)."
 },
 "C106": {
  "status": "partial",
  "note": "Proved for shared pointers to const messages and const events. False of all other documented forms (C106_any_form_refuted): M and const M & dereference null, shared_ptr<M> and MessageEvent<M> fail assert(create_); a callback with only such parameters fails at every drop (C106_other_forms_always_fail)."
 },
 "C112": {
  "status": "partial",
  "note": "Proved for Cache and the synchronizers, and for TimeSequencer and InputAligner if the destroying thread is the one that runs their timer. False of PassThrough (no destructor), and of TimeSequencer and InputAligner if another thread runs the timer: cancelling does not wait for a running timer callback (C112_timer_refuted)."
 },
 "C113": {
  "status": "partial",
  "note": "False with vectors that destroy their elements first to last (libstdc++): use after free exactly if the chain owns a filter after the first whose destructor disconnects, such as Cache or TimeSequencer (C113_first_to_last_refuted, for every such chain). Proved for all other chains, and for vectors that destroy last to first. Filters of a chain within the chain are not taken to be owned."
 },
 "C114": {
  "status": "partial",
  "note": "Proved: whatever returns takes effect in order, for every filter; Cache callbacks may query and resize; TimeSequencer callbacks may add. False otherwise: InputAligner and all synchronizer policies hold their mutex while signalling, so any call that locks it blocks for ever; so does adding to a Cache from its own callback (the signal's mutex); a TimeSequencer drops a message its callback adds although newer than all delivered messages, if the same tick delivers a still newer one later. Setters without a lock (setInputPeriod, setRateConfig) are not called by callbacks in the model of the filters that hold their mutex."
 },
 "C115": {
  "status": "partial",
  "note": "Proved without restriction if all events are made from message pointers (C115_pointer_events_never_change), as Subscriber and add(message) do. False for events constructed with nonconst_need_copy = false: a lone callback with non-const access writes to the object that a Cache stores (C115_lone_callback_refuted, for every state and network), which can put the cache out of order. Proved for such events whenever they are not handed to a lone mutable callback or a mutable synchronizer callback."
 },
 "C116": {
  "status": "partial",
  "note": "Proved for sizes up to INT_MAX: with the int and unsigned int variables of the code all queries equal those on unbounded integers, in every history. False above: in a cache of more than INT_MAX messages getSurroundingInterval is undefined behaviour, getElemAfterTime never finds a message and getElemBeforeTime finds none beyond the first 2^31 (C116_large_cache_refuted, C116_large_cache_reachable_refuted)."
 },
 "C117": {
  "status": "partial",
  "note": "Proved for callbacks of all networks of filters (C117_callbacks_see_whole_messages), and for programs using events directly until copying a message throws; a factory that throws does no harm. False after a throwing copy: message_copy_ is set before the message is copied into it, so the next getMessage of the same MessageEvent<M> returns the incomplete copy (C117_incomplete_copy_refuted). Null messages: exact condition under which they can be signalled (C117_null_messages). Refuted too: events without a factory (default constructed), factories that return an object in use."
 },
 "C118": {
  "status": "partial",
  "note": "Proved for MessageEvent<M const> (all that filters pass on) and for events that demand no copies, for all schedules; and for all events if no two calls overlap. False for a MessageEvent<M> that demands copies: a const call writes message_copy_, another thread may then get a message that is not yet filled, and the threads may get different copies (C118_incomplete_message_refuted, C118_two_copies_refuted, C118_data_race_refuted)."
 },
 "C119": {
  "status": "proved",
  "note": "All histories with times (for system-clock stamps, as for C39). That the timer ticks in time is an assumption, expressed in the clock that dispatch reads. C119_queue_for_the_delay_refuted: a queue for the messages of the delay alone loses messages."
 },
 "C120": {
  "status": "proved",
  "note": "All callbacks that call this policy's setters (or add); calls to other objects from the callback are C114. Optimality assumes, as for C32, streams in time order that respect every lower bound ever in force."
 },
 "C121": {
  "status": "proved",
  "note": "All callbacks that set periods of existing inputs (the index is a template argument), read statuses, add or dispatch; the timeout is not negative (C47 shows the need). Calls to other objects from the callback are C114."
 },
 "C122": {
  "status": "proved",
  "note": "All callbacks that set configurations and clocks, or add. That a clock of another source silences the policy is stated for callbacks that always leave such a clock set and no clock set from outside. Calls to other objects from the callback are C114."
 },
 "C123": {
  "status": "partial",
  "note": "Proved for TimeSequencer (safe exactly if the callback does not run). False for InputAligner, whose destructor does not cancel the timer: safe exactly if no executor holds a reference to a timer of the filter. Proved that cancelling first would suffice. What executors do with timers (weak reference in the node, strong one from finding the timer ready to the end of its callback, check for cancellation in between) is an assumption about rclcpp."
 },
 "C124": {
  "status": "partial",
  "note": "Accepted exactly if node, message type and topic are given by position and all else by keyword; a QoS profile by position, or the topic or message type by keyword, raises an exception although the documentation promises identical arguments. Messages are passed on up to the first callback that raises an exception or registers a callback (C86). The parameters of rclpy's create_subscription are an assumption; __getattr__ is not modelled."
 }
}