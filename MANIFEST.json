{
 "claims": [
  {
   "property": "C01",
   "status": "proved",
   "theorems": [
    "C01_fanout",
    "C01_fanout_total"
   ],
   "note": ""
  },
  {
   "property": "C02",
   "status": "proved",
   "theorems": [
    "C02_connection_identity",
    "C02_disconnect_local",
    "C02_disconnect_idempotent",
    "C02_disconnect_default"
   ],
   "note": ""
  },
  {
   "property": "C03",
   "status": "proved",
   "theorems": [
    "C03_isolated",
    "C03_access",
    "C03_single_no_copy"
   ],
   "note": ""
  },
  {
   "property": "C04",
   "status": "partial",
   "theorems": [
    "C04_sync_isolated_partial",
    "C04_sync_isolated_refuted"
   ],
   "note": "False: signal9.hpp builds events demanding copies and then passes the original ones (C04_sync_isolated_refuted). Proved when every event already demands copies (messages added as shared_ptr, or received by a Subscriber): C04_sync_isolated_partial."
  },
  {
   "property": "C05",
   "status": "partial",
   "theorems": [
    "C05_events_total",
    "C05_same_object",
    "C05_copied_once",
    "C05_original_or_private",
    "C05_metadata",
    "C05_private_contents_partial",
    "C05_original_kept_partial",
    "C05_copies_never_shared_refuted"
   ],
   "note": "Same object, copied once, original otherwise and metadata proved for every program. 'Copying never shares the private copy' is false for copies of MessageEvent<M> (C05_copies_never_shared_refuted) and proved when the copied events are MessageEvent<M const> (C05_private_contents_partial, C05_original_kept_partial)."
  },
  {
   "property": "C06",
   "status": "proved",
   "theorems": [
    "C06_cache_sorted",
    "C06_cache_ties_in_arrival_order"
   ],
   "note": ""
  },
  {
   "property": "C07",
   "status": "proved",
   "theorems": [
    "C07_cache_bounded",
    "C07_cache_resize_keeps_contents"
   ],
   "note": ""
  },
  {
   "property": "C08",
   "status": "proved",
   "theorems": [
    "C08_cache_last_n_in_order",
    "C08_cache_evicts_exactly_the_oldest",
    "C08_most_recent_n_refuted"
   ],
   "note": "Proved as stated (last N for ordered arrivals; exact eviction for any order). The stronger reading 'most recent N for any arrival order' is refuted by C08_most_recent_n_refuted."
  },
  {
   "property": "C09",
   "status": "proved",
   "theorems": [
    "C09_getInterval_exact"
   ],
   "note": ""
  },
  {
   "property": "C10",
   "status": "proved",
   "theorems": [
    "C10_getSurroundingInterval_tightest"
   ],
   "note": ""
  },
  {
   "property": "C11",
   "status": "proved",
   "theorems": [
    "C11_getElemBeforeTime_exact",
    "C11_getElemAfterTime_exact"
   ],
   "note": ""
  },
  {
   "property": "C12",
   "status": "proved",
   "theorems": [
    "C12_getLatestTime_is_max",
    "C12_getOldestTime_is_min"
   ],
   "note": ""
  },
  {
   "property": "C13",
   "status": "proved",
   "theorems": [
    "C13_cache_forwards_everything",
    "C13_cache_forwards_immediately"
   ],
   "note": ""
  },
  {
   "property": "C14",
   "status": "partial",
   "theorems": [
    "C14_cache_size_zero_refuted",
    "C14_cache_usable_once_sized"
   ],
   "note": "The claim is false of the code (indeterminate cache_size_): C14_cache_size_zero_refuted. What holds is C14_cache_usable_once_sized."
  },
  {
   "property": "C15",
   "status": "proved",
   "theorems": [
    "C15_cache_one_clock_source",
    "C15_queries_do_not_change_the_cache",
    "C15_foreign_clock_query_throws",
    "C15_foreign_clock_end",
    "C15_foreign_clock_surrounding",
    "C15_foreign_clock_add"
   ],
   "note": ""
  },
  {
   "property": "C16",
   "status": "proved",
   "theorems": [
    "C16_exact_sets_match",
    "C16_exact_output_contains_trigger"
   ],
   "note": ""
  },
  {
   "property": "C17",
   "status": "proved",
   "theorems": [
    "C17_exact_complete_step",
    "C17_exact_complete",
    "C17_exact_once"
   ],
   "note": ""
  },
  {
   "property": "C18",
   "status": "proved",
   "theorems": [
    "C18_exact_accounting",
    "C18_exact_accounting_in_order"
   ],
   "note": ""
  },
  {
   "property": "C19",
   "status": "proved",
   "theorems": [
    "C19_exact_bounded",
    "C19_exact_output_drops_exactly_older",
    "C19_exact_overflow_drops_one_oldest"
   ],
   "note": ""
  },
  {
   "property": "C20",
   "status": "proved",
   "theorems": [
    "C20_exact_output_in_time_order",
    "C20_time_order_for_late_messages_refuted"
   ],
   "note": "Proved under the stated premise; C20_time_order_for_late_messages_refuted shows the premise is needed."
  },
  {
   "property": "C21",
   "status": "proved",
   "theorems": [
    "C21_exact_order_independent"
   ],
   "note": ""
  },
  {
   "property": "C22",
   "status": "proved",
   "theorems": [
    "C22_eps_sets_fit"
   ],
   "note": ""
  },
  {
   "property": "C23",
   "status": "proved",
   "theorems": [
    "C23_eps_subsequence",
    "C23_eps_set_slots"
   ],
   "note": ""
  },
  {
   "property": "C24",
   "status": "proved",
   "theorems": [
    "C24_eps_bounded",
    "C24_eps_overflow_drops_oldest"
   ],
   "note": ""
  },
  {
   "property": "C25",
   "status": "proved",
   "theorems": [
    "C25_eps_total",
    "C25_eps_negative_diverges"
   ],
   "note": ""
  },
  {
   "property": "C26",
   "status": "partial",
   "theorems": [
    "C26_eps_discards_only_unusable_partial",
    "C26_eps_discards_only_unusable_refuted"
   ],
   "note": "False as stated from three inputs on (C26_eps_discards_only_unusable_refuted). Proved for two inputs, and for any number of inputs whose messages fall into groups more than epsilon apart (C26_eps_discards_only_unusable_partial)."
  },
  {
   "property": "C27",
   "status": "proved",
   "theorems": [
    "C27_approx_never_fails"
   ],
   "note": ""
  },
  {
   "property": "C28",
   "status": "proved",
   "theorems": [
    "C28_approx_subsequence",
    "C28_approx_keeps_most_recent"
   ],
   "note": ""
  },
  {
   "property": "C29",
   "status": "proved",
   "theorems": [
    "C29_approx_bounded"
   ],
   "note": ""
  },
  {
   "property": "C30",
   "status": "proved",
   "theorems": [
    "C30_approx_max_interval_rounded",
    "C30_approx_max_interval"
   ],
   "note": "Assumes the age-penalty scaling is monotone truncating multiplication by num/den >= 1 (hypothesis scaling, met by scale_by)."
  },
  {
   "property": "C31",
   "status": "proved",
   "theorems": [
    "C31_approx_long_double",
    "C31_approx_long_double_nearest",
    "C31_approx_optimal_rounded",
    "C31_approx_exactly_optimal_refuted",
    "C31_approx_optimal"
   ],
   "note": "For every arithmetic that rounds up by at most tol (hypothesis scaling); scale_long_double, the arithmetic of rclcpp::Duration::operator*, meets it with a quarter of a nanosecond (C31_approx_long_double). Optimality without any tolerance is refuted for it (C31_approx_exactly_optimal_refuted)."
  },
  {
   "property": "C32",
   "status": "proved",
   "theorems": [
    "C32_approx_next_set",
    "C32_approx_next_set_unique",
    "C32_approx_found_set",
    "C32_approx_found_set_unique",
    "C32_approx_contiguous",
    "C32_approx_contiguous_unlimited"
   ],
   "note": ""
  },
  {
   "property": "C33",
   "status": "proved",
   "theorems": [
    "C33_approx_order_independent_rounded",
    "C33_approx_order_independent",
    "C33_approx_no_overflow_if_small_backlog"
   ],
   "note": ""
  },
  {
   "property": "C34",
   "status": "proved",
   "theorems": [
    "C34_approx_perfect_match_now",
    "C34_approx_no_perfect_match_left"
   ],
   "note": ""
  },
  {
   "property": "C35",
   "status": "proved",
   "theorems": [
    "C35_latest_outputs_latest",
    "C35_latest_one_outcome_per_call"
   ],
   "note": ""
  },
  {
   "property": "C36",
   "status": "partial",
   "theorems": [
    "C36_latest_memory_safe_iff",
    "C36_latest_memory_safe_partial",
    "C36_latest_only_failure",
    "C36_latest_memory_safe_refuted"
   ],
   "note": "False in general: two messages on a later input before enough inputs have started read rates_ out of bounds (C36_latest_memory_safe_refuted). C36_latest_memory_safe_iff characterises the safe histories exactly; in-order starts and all-once-first are safe."
  },
  {
   "property": "C37",
   "status": "proved",
   "theorems": [
    "C37_latest_double_clock_test",
    "C37_latest_double_stalled_clock_is_quiet",
    "C37_latest_rate_terminates",
    "C37_latest_rate_ignores_stalled_clock",
    "C37_latest_stalled_clock_is_quiet"
   ],
   "note": "Termination for every float behaviour; the stalled-clock part assumes fle (fsecs z) 0 agrees with z <= 0, met by exact arithmetic (C37_nonvacuous) and by binary64 (C37_latest_double_clock_test, C37_latest_double_stalled_clock_is_quiet)."
  },
  {
   "property": "C38",
   "status": "partial",
   "theorems": [
    "C38_latest_config_in_place_partial",
    "C38_latest_config_survives_copy_refuted"
   ],
   "note": "False: the copy does not carry rate_configs_ (C38_latest_config_survives_copy_refuted). Proved for configuration set on the policy in use, with inputs starting in index order."
  },
  {
   "property": "C39",
   "status": "proved",
   "theorems": [
    "C39_seq_ordered",
    "C39_seq_ties_fifo"
   ],
   "note": ""
  },
  {
   "property": "C40",
   "status": "proved",
   "theorems": [
    "C40_seq_never_early",
    "C40_seq_add_passes_nothing",
    "C40_seq_delivers_due"
   ],
   "note": ""
  },
  {
   "property": "C41",
   "status": "proved",
   "theorems": [
    "C41_seq_accounting",
    "C41_seq_late_ignored"
   ],
   "note": ""
  },
  {
   "property": "C42",
   "status": "partial",
   "theorems": [
    "C42_seq_bounded",
    "C42_seq_eviction",
    "C42_seq_keeps_newest_partial",
    "C42_seq_keeps_newest_refuted"
   ],
   "note": "False with equal stamps: the overflow erases by key (C42_seq_keeps_newest_refuted). Proved: the bound, the exact eviction (all messages with the oldest stamp), and for distinct stamps that the newest q are kept (C42_seq_keeps_newest_partial)."
  },
  {
   "property": "C43",
   "status": "partial",
   "theorems": [
    "C43_seq_system_stamps_never_fail_partial",
    "C43_seq_header_stamps_refuted"
   ],
   "note": "False: every addition of a message with a header throws, because last_time_ is a system-clock time (C43_seq_header_stamps_refuted). With system-clock stamps nothing ever throws (C43_seq_system_stamps_never_fail_partial)."
  },
  {
   "property": "C44",
   "status": "proved",
   "theorems": [
    "C44_aligner_ordered",
    "C44_aligner_ties_fifo"
   ],
   "note": ""
  },
  {
   "property": "C45",
   "status": "proved",
   "theorems": [
    "C45_aligner_accounting",
    "C45_aligner_accepts_in_time"
   ],
   "note": ""
  },
  {
   "property": "C46",
   "status": "proved",
   "theorems": [
    "C46_aligner_no_drop"
   ],
   "note": ""
  },
  {
   "property": "C47",
   "status": "proved",
   "theorems": [
    "C47_aligner_total",
    "C47_aligner_dispatch_maximal",
    "C47_aligner_newest_input",
    "C47_aligner_negative_timeout_diverges"
   ],
   "note": ""
  },
  {
   "property": "C48",
   "status": "proved",
   "theorems": [
    "C48_aligner_never_overtakes",
    "C48_aligner_prediction",
    "C48_aligner_run_reaches"
   ],
   "note": ""
  },
  {
   "property": "C49",
   "status": "proved",
   "theorems": [
    "C49_chain_is_composition",
    "C49_chain_traversal",
    "C49_callbacks_get_the_output",
    "C49_disconnected_callback",
    "C49_chain_end_to_end",
    "C49_subscriber_ignores_input"
   ],
   "note": "Networks of any filters built by any program (Net_Model). The filters of the chain must not be fed from outside during the part of the program considered; C49_chain_traversal needs no assumption on what filters compute."
  },
  {
   "property": "C50",
   "status": "proved",
   "theorems": [
    "C50_add_filter_index",
    "C50_get_filter"
   ],
   "note": ""
  },
  {
   "property": "C51",
   "status": "partial",
   "theorems": [
    "C51_reconnecting_replaces_partial",
    "C51_connected_once",
    "C51_cache_keeps_old_input_refuted"
   ],
   "note": "False for Cache, whose connectInput leaves the old connection (C51_cache_keeps_old_input_refuted). Proved for every other kind after any history, and for every kind connected once."
  },
  {
   "property": "C52",
   "status": "partial",
   "theorems": [
    "C52_no_delivery_to_destroyed_partial",
    "C52_passthrough_refuted",
    "C52_chain_refuted",
    "C52_chain_filter_refuted",
    "C52_cache_refuted"
   ],
   "note": "False for PassThrough and Chain (no disconnect on destruction), for a Cache connected twice, and for filters whose chain is destroyed (C52_*_refuted). Proved when every destroyed filter disconnects in its destructor, lost no connection and belongs to no chain."
  },
  {
   "property": "C53",
   "status": "proved",
   "theorems": [
    "C53_synchronizer_slots"
   ],
   "note": "Between two connectInput calls, with any number of inputs; also slots without filter receive nothing."
  },
  {
   "property": "C54",
   "status": "partial",
   "theorems": [
    "C54_one_subscription",
    "C54_never_two",
    "C54_only_held_remain",
    "C54_messages",
    "C54_get_topic",
    "C54_resubscribe_restores",
    "C54_user_pointer_refuted",
    "C54_two_subscriptions_refuted"
   ],
   "note": "Proved for users who keep no pointer from getSubscriber (also: never two subscriptions in the middle of a call, refused requests, getTopic). False otherwise: such a pointer keeps the old subscription delivering (C54_user_pointer_refuted, C54_two_subscriptions_refuted); C54_only_held_remain says nothing else remains."
  },
  {
   "property": "C55",
   "status": "proved",
   "theorems": [
    "C55_sets_match",
    "C55_stored",
    "C55_one_per_call"
   ],
   "note": "Every history, number of inputs and set of raising callbacks."
  },
  {
   "property": "C56",
   "status": "proved",
   "theorems": [
    "C56_sets_fit",
    "C56_stored",
    "C56_one_per_call"
   ],
   "note": "Every history, slop, queue_size and set of raising callbacks. C79_zero_slop: with slop 0 nothing is delivered."
  },
  {
   "property": "C57",
   "status": "partial",
   "theorems": [
    "C57_contents",
    "C57_forwarding",
    "C57_interval",
    "C57_interval_members",
    "C57_after_arrival",
    "C57_before_arrival",
    "C57_after_partial",
    "C57_before_partial",
    "C57_end_times_partial",
    "C57_last_partial",
    "C57_out_of_order_refuted",
    "C57_last_refuted"
   ],
   "note": "Contents, forwarding and getInterval are proved for every history. getElemAfterTime/getElemBeforeTime are proved with respect to arrival order always, and with respect to time for histories in stamp order; oldest/latest times and getLast likewise. C57_out_of_order_refuted and C57_last_refuted show the time-ordered claims are false of the code in general."
  },
  {
   "property": "C58",
   "status": "proved",
   "theorems": [
    "C58_equivalent_to_sequential",
    "C58_equivalent_at_every_moment",
    "C58_real_time",
    "C58_can_finish",
    "C58_exact_time",
    "C58_exact_time_sets_match",
    "C58_approximate_time",
    "C58_approximate_epsilon_time",
    "C58_latest_time",
    "C58_input_aligner"
   ],
   "note": "Methods that hold their mutex throughout; instances for the four policies and InputAligner. Memory is sequentially consistent. Callbacks that call back into the object are C69/C73."
  },
  {
   "property": "C59",
   "status": "partial",
   "theorems": [
    "C59_equivalent_to_sequential",
    "C59_exactly_once",
    "C59_can_finish",
    "C59_one_input_partial",
    "C59_order_refuted"
   ],
   "note": "Exactly once, per-thread order and sequential contents are proved for every schedule; forwarding in insertion order is refuted for several sources and proved for one input filter."
  },
  {
   "property": "C60",
   "status": "proved",
   "theorems": [
    "C60_approx_progress"
   ],
   "note": ""
  },
  {
   "property": "C61",
   "status": "partial",
   "theorems": [
    "C61_approx_copy_idle",
    "C61_approx_copy_anytime_refuted"
   ],
   "note": "False for copies made while a search is in progress: candidate_ is not copied and nulls are published (C61_approx_copy_anytime_refuted). Proved for copies made while no candidate is pending, in particular before use (C61_approx_copy_idle)."
  },
  {
   "property": "C62",
   "status": "partial",
   "theorems": [
    "C62_approx_warning_sound",
    "C62_approx_warning_complete_refuted"
   ],
   "note": "Soundness proved; completeness is false (C62_approx_warning_complete_refuted), the branch comparing with past_ is unreachable because the check is skipped for an empty deque."
  },
  {
   "property": "C63",
   "status": "proved",
   "theorems": [
    "C63_eps_outputs_when_heads_fit"
   ],
   "note": ""
  },
  {
   "property": "C64",
   "status": "partial",
   "theorems": [
    "C64_latest_config_per_input_refuted",
    "C64_latest_config_per_input_partial"
   ],
   "note": "False when inputs do not start in index order (C64_latest_config_per_input_refuted); proved for in-order starts."
  },
  {
   "property": "C65",
   "status": "partial",
   "theorems": [
    "C65_latest_one_clock_never_throws_partial",
    "C65_latest_clock_change_silences",
    "C65_latest_clock_change_refuted"
   ],
   "note": "False: an addition can throw (C65_latest_clock_change_refuted), and once every input has started nothing is output after the change (C65_latest_clock_change_silences). Proved: one clock source never throws."
  },
  {
   "property": "C66",
   "status": "proved",
   "theorems": [
    "C66_latest_double_pivot",
    "C66_latest_pivot"
   ],
   "note": "For every arithmetic whose comparison orders the rates; for binary64 this is proved (C66_latest_double_pivot)."
  },
  {
   "property": "C67",
   "status": "partial",
   "theorems": [
    "C67_latest_double_periodic",
    "C67_latest_double_periodic_partial",
    "C67_latest_double_every_other",
    "C67_latest_double_periodic_refuted",
    "C67_latest_periodic_inputs_exact_partial"
   ],
   "note": "False in binary64 (C67_latest_double_periodic_refuted): with equal periods that smoothing does not reproduce exactly, every other set is lost (C67_latest_double_every_other). C67_latest_double_periodic says for all periods which messages trigger outputs; the property follows if equal periods are settled and no message is handled at the instant another one is due (C67_latest_double_periodic_partial), and in exact arithmetic (C67_latest_periodic_inputs_exact_partial)."
  },
  {
   "property": "C68",
   "status": "partial",
   "theorems": [
    "C68_latest_double_estimate_partial",
    "C68_latest_double_estimate_refuted",
    "C68_latest_estimate_within_exact_partial",
    "C68_latest_estimate_constant_exact_partial"
   ],
   "note": "False to the last bit in binary64 (C68_latest_double_estimate_refuted); true up to a relative error of 2^-50/alpha for alpha >= 2^-48 (C68_latest_double_estimate_partial, without the error estimate), and in exact arithmetic (C68_..._exact_partial)."
  },
  {
   "property": "C69",
   "status": "partial",
   "theorems": [
    "C69_reentrant_use_deadlocks",
    "C69_reentrant_use_refuted"
   ],
   "note": "False: call() holds a non-recursive mutex while callbacks run (C69_reentrant_use_refuted); C69_reentrant_use_deadlocks shows that every use of the calling filter deadlocks."
  },
  {
   "property": "C70",
   "status": "proved",
   "theorems": [
    "C70_throwing_callback",
    "C70_filter_usable_after_throw",
    "C70_all_called_despite_throw_refuted"
   ],
   "note": "The stronger reading 'the remaining callbacks are still called' is refuted by C70_all_called_despite_throw_refuted."
  },
  {
   "property": "C71",
   "status": "proved",
   "theorems": [
    "C71_network_isolated"
   ],
   "note": ""
  },
  {
   "property": "C72",
   "status": "partial",
   "theorems": [
    "C72_downstream_first_partial",
    "C72_upstream_first_refuted",
    "C72_chain_first_refuted",
    "C72_forgotten_input_refuted"
   ],
   "note": "False: destroying an upstream filter, or the chain a filter was added to, before the filter connected to it is a use after free (C72_*_refuted). Proved for a filter destroyed while everything it was ever connected to exists."
  },
  {
   "property": "C73",
   "status": "proved",
   "theorems": [
    "C73_acyclic_networks_complete",
    "C73_loop_deadlocks",
    "C73_chain_in_itself_recurses"
   ],
   "note": "Levels decreasing along connections express the absence of cycles. With cycles: C73_loop_deadlocks, C73_chain_in_itself_recurses."
  },
  {
   "property": "C74",
   "status": "partial",
   "theorems": [
    "C74_no_call_after_destruction_partial",
    "C74_user_pointer_refuted"
   ],
   "note": "Proved for users who keep no pointer from getSubscriber; false otherwise (C74_user_pointer_refuted)."
  },
  {
   "property": "C75",
   "status": "partial",
   "theorems": [
    "C75_shared_node_kept_partial",
    "C75_shared_without_options_refuted",
    "C75_constructor_refuted"
   ],
   "note": "Proved for the subscribe overloads with a shared pointer and options. False for the overloads without options and for all constructors, which keep only the address (C75_*_refuted)."
  },
  {
   "property": "C76",
   "status": "partial",
   "theorems": [
    "C76_resubscribe_node_partial",
    "C76_empty_topic_refuted"
   ],
   "note": "Proved unless subscribe is called with a shared pointer, options and an empty topic: that call unsubscribes but still replaces the node (C76_empty_topic_refuted)."
  },
  {
   "property": "C77",
   "status": "partial",
   "theorems": [
    "C77_exact_blocks",
    "C77_approx_blocks",
    "C77_returns_partial",
    "C77_approx_returns_partial",
    "C77_no_exception_partial",
    "C77_refuted",
    "C77_no_header_refuted",
    "C77_negative_size_refuted"
   ],
   "note": "Refuted: C77_exact_blocks and C77_approx_blocks show that after any exception inside the lock every later call blocks for ever (witnesses C77_refuted, C77_no_header_refuted, C77_negative_size_refuted). Proved: while no call has raised every call returns, and no call raises with well-behaved callbacks, stamped messages and a non-negative queue_size."
  },
  {
   "property": "C78",
   "status": "proved",
   "theorems": [
    "C78_delivers_what_meets",
    "C78_nothing_waits",
    "C78_dropped"
   ],
   "note": "Equality with an independent rendezvous table for every history that fits; drops characterised for every history."
  },
  {
   "property": "C79",
   "status": "proved",
   "theorems": [
    "C79_nothing_waits",
    "C79_complete",
    "C79_closest",
    "C79_zero_slop",
    "C79_dropped"
   ],
   "note": "Completeness is stated for histories in which no message has to be dropped (distinct stamps, at most queue_size per input); nothing_waits, closest and dropped hold for every history."
  },
  {
   "property": "C80",
   "status": "partial",
   "theorems": [
    "C80_exactly_once",
    "C80_one_dispatcher",
    "C80_one_dispatcher_in_order",
    "C80_refuted"
   ],
   "note": "Exactly once for every schedule and in order with one dispatching thread are proved (system-clock stamps); with several dispatching threads the order is refuted."
  },
  {
   "property": "C81",
   "status": "partial",
   "theorems": [
    "C81_one_thread_partial",
    "C81_pairs_refuted",
    "C81_contents_refuted"
   ],
   "note": "Refuted: two threads can swap times and messages and can empty the cache. Proved for a single adding thread."
  },
  {
   "property": "C82",
   "status": "partial",
   "theorems": [
    "C82_network_race_free_partial",
    "C82_time_sequencer_race_free",
    "C82_exact_time_race_free",
    "C82_approximate_epsilon_time_race_free",
    "C82_cache_set_size_refuted",
    "C82_approximate_time_setters_refuted",
    "C82_latest_time_setters_refuted",
    "C82_input_aligner_refuted"
   ],
   "note": "Proved for every acyclic network and every schedule for adding, dispatching, querying, registering and disconnecting. The setters (Cache::setCacheSize, the ApproximateTime and LatestTime setters, InputAligner::setInputPeriod) and getQueueStatus take no mutex: refuted."
  },
  {
   "property": "C83",
   "status": "proved",
   "theorems": [
    "C83_network_deadlock_free",
    "C83_cycle_refuted"
   ],
   "note": "Every acyclic network; user callbacks that call back into the filters are C69/C73. C83_cycle_refuted shows that the hypothesis is needed."
  },
  {
   "property": "C84",
   "status": "proved",
   "theorems": [
    "C84_disconnect_is_final",
    "C84_connected_is_called",
    "C84_registration_order",
    "C84_one_callback_at_a_time"
   ],
   "note": "for every schedule of threads that emit, register and disconnect on one signal; a callback that itself registers or disconnects is the subject of the deadlock properties"
  },
  {
   "property": "C85",
   "status": "partial",
   "theorems": [
    "C85_inputs_last",
    "C85_constructed_first_partial",
    "C85_connects_too_early",
    "C85_time_synchronizer",
    "C85_synchronizer_refuted",
    "C85_approximate_refuted",
    "C85_python_cache_refuted",
    "C85_python_synchronizer_refuted"
   ],
   "note": "false of the code for Synchronizer constructed with its filters and for the Python classes: they connect their inputs before parent_, or the attributes, are set (refuted); proved for every filter that connects its inputs last, such as TimeSynchronizer, and for every constructor if nothing arrives before it has returned"
  },
  {
   "property": "C86",
   "status": "partial",
   "theorems": [
    "C86_connections_distinct",
    "C86_every_callback_once",
    "C86_up_to_the_first_disturbance",
    "C86_registering_callback_refuted",
    "C86_concurrent_signals",
    "C86_concurrent_registration_refuted",
    "C86_register_while_signalling_refuted"
   ],
   "note": "proved for one thread and callbacks that register nothing, and for threads that only signal; false of the code if a callback registers a callback, if two threads register, or if one registers while another signals (refuted)"
  },
  {
   "property": "C87",
   "status": "proved",
   "theorems": [
    "C87_aligner_no_exceptions",
    "C87_eps_no_exceptions",
    "C87_approx_no_exceptions",
    "C87_sequencer_no_exceptions",
    "C87_exact_no_exceptions",
    "C87_sequencer_sound",
    "C87_aligner_sound",
    "C87_aligner_recovers",
    "C87_exact_sound",
    "C87_eps_sound",
    "C87_approx_sound",
    "C87_eps_resumes",
    "C87_eps_keeps",
    "C87_approx_cut_short",
    "C87_approx_keeps",
    "C87_aligner_cut_short",
    "C87_exact_cut_short"
   ],
   "note": "TimeSequencer, InputAligner, ExactTime, ApproximateEpsilonTime and ApproximateTime; Cache and LatestTime are C88. The models with exceptions equal those without when nothing is thrown (C87_*_no_exceptions)."
  },
  {
   "property": "C88",
   "status": "partial",
   "theorems": [
    "C88_cache_unaffected",
    "C88_latest_unaffected",
    "C88_sequencer_loses_refuted",
    "C88_aligner_redelivers_refuted",
    "C88_exact_redelivers_refuted",
    "C88_exact_unbounded_refuted",
    "C88_eps_refuted",
    "C88_approx_unbounded_refuted",
    "C88_approx_stalls_refuted"
   ],
   "note": "proved for Cache and LatestTime; false of the code for the others (refuted): TimeSequencer loses the rest of the tick, InputAligner, ExactTime and ApproximateEpsilonTime deliver again, the queues of ExactTime, ApproximateEpsilonTime and ApproximateTime exceed their size without bound, and ApproximateTime can stop until a queue overflows."
  },
  {
   "property": "C89",
   "status": "partial",
   "theorems": [
    "C89_equality",
    "C89_throws",
    "C89_inequality",
    "C89_trichotomy",
    "C89_direction",
    "C89_irreflexive",
    "C89_transitive",
    "C89_equivalence",
    "C89_congruence",
    "C89_copy_equal_partial",
    "C89_stable",
    "C89_copy_equal_refuted"
   ],
   "note": "the comparison operators are proved without conditions; that a copy equals its source is proved for const events and events that demand no copies (C89_copy_equal_partial, C89_stable) and false of the code otherwise: copying a MessageEvent<M> that demands copies copies the message (C89_copy_equal_refuted)."
  },
  {
   "property": "C90",
   "status": "partial",
   "theorems": [
    "C90_exact_independent",
    "C90_exact_drops",
    "C90_exact_drop_callback_lost_refuted",
    "C90_eps_independent_partial",
    "C90_eps_used_refuted",
    "C90_approx_independent_partial",
    "C90_assign_policy_refuted",
    "C90_assign_synchronizer_refuted",
    "C90_exact_assigned",
    "C90_approx_assigned_partial",
    "C90_eps_self_assigned"
   ],
   "note": "ExactTime: proved for copies at any time. ApproximateEpsilonTime: proved for policies not used before, refuted for policies in use (the copy never outputs anything). ApproximateTime: proved for copies outside a search, see C61. Refuted: drop callbacks are not copied, assignment to the policy of a synchronizer cuts it off from its callbacks. LatestTime: C38."
  },
  {
   "property": "C91",
   "status": "proved",
   "theorems": [
    "C91_latest_estimates_are_numbers",
    "C91_latest_nan_config_not_sorted"
   ],
   "note": "In binary64 without fused operations. C91_latest_nan_config_not_sorted shows that the range of the configuration matters: it is not checked."
  },
  {
   "property": "C92",
   "status": "partial",
   "theorems": [
    "C92_negative_seconds_are_invalid",
    "C92_exact_refuses",
    "C92_aligner_refuses",
    "C92_sequencer_refuses",
    "C92_sequencer_others_unaffected",
    "C92_cache_refuses_partial",
    "C92_cache_refuses_refuted",
    "C92_cache_valid_as_before",
    "C92_approximate_refuses_refuted",
    "C92_epsilon_refuses_refuted"
   ],
   "note": "proved for ExactTime, InputAligner and TimeSequencer; Cache: a full cache loses its oldest message (C92_cache_refuses_partial, refuted in full); ApproximateTime and ApproximateEpsilonTime accept and keep the message (refuted)."
  },
  {
   "property": "C93",
   "status": "proved",
   "theorems": [
    "C93_exact_passes_only_valid",
    "C93_aligner_passes_only_valid",
    "C93_sequencer_passes_only_valid",
    "C93_cache_passes_only_valid",
    "C93_approximate_passes_only_valid",
    "C93_epsilon_passes_only_valid"
   ],
   "note": "Cache, TimeSequencer, InputAligner, ExactTime, ApproximateEpsilonTime, ApproximateTime; LatestTime and Chain read no stamps."
  },
  {
   "property": "C94",
   "status": "partial",
   "theorems": [
    "C94_exact_unaffected",
    "C94_approximate_blocked_forever",
    "C94_epsilon_blocked_forever",
    "C94_epsilon_first_exception_is_final",
    "C94_approximate_unaffected_refuted",
    "C94_epsilon_unaffected_refuted"
   ],
   "note": "proved for ExactTime; false of ApproximateTime and ApproximateEpsilonTime (refuted): the *_blocked_forever theorems give histories after which nothing is ever output."
  },
  {
   "property": "C95",
   "status": "partial",
   "theorems": [
    "C95_exact_bounded",
    "C95_cache_bounded",
    "C95_approximate_bounded_refuted",
    "C95_epsilon_bounded_refuted"
   ],
   "note": "proved for ExactTime and Cache; false of ApproximateTime and ApproximateEpsilonTime: the *_bounded_refuted theorems show that everything is held, whatever the queue size. The InputAligner has no bound on its queues without them."
  },
  {
   "property": "C96",
   "status": "proved",
   "theorems": [
    "C96_approximate_sound",
    "C96_approximate_as_before",
    "C96_epsilon_sound",
    "C96_epsilon_as_before"
   ],
   "note": "ApproximateTime and ApproximateEpsilonTime; for the others C92 says more."
  },
  {
   "property": "C97",
   "status": "proved",
   "theorems": [
    "C97_setters_never_fail",
    "C97_setters_fail_only_if_not_allowed",
    "C97_negative_value_asserts",
    "C97_parameters_in_force",
    "C97_setters_before_use",
    "C97_setters_keep_most_recent",
    "C97_setters_max_interval",
    "C97_idle_if_an_input_is_empty",
    "C97_optimal_for_the_parameters_in_force",
    "C97_found_with_the_parameters_in_force",
    "C97_current_max_interval_refuted"
   ],
   "note": "C97_current_max_interval_refuted shows that a maximum interval lowered during a search does not apply to the set found by that search; the statement therefore speaks of the largest one."
  },
  {
   "property": "C98",
   "status": "proved",
   "theorems": [
    "C98_eps_no_overflow",
    "C98_eps_never_throws",
    "C98_approx_no_overflow",
    "C98_approx_never_throws",
    "C98_aligner_no_overflow",
    "C98_aligner_never_throws",
    "C98_seq_no_overflow",
    "C98_header_times_in_range"
   ],
   "note": ""
  },
  {
   "property": "C99",
   "status": "partial",
   "theorems": [
    "C99_eps_huge_never_outputs",
    "C99_eps_any_epsilon_refuted",
    "C99_aligner_any_period_refuted",
    "C99_seq_any_delay_refuted",
    "C99_approx_any_bound_refuted",
    "C99_approx_any_penalty_refuted"
   ],
   "note": "False of the code: the largest duration as epsilon, period, delay or lower bound, or a large age penalty, makes the filter throw. With such an epsilon ApproximateEpsilonTime never outputs anything. What holds for bounded parameters is C98."
  },
  {
   "property": "C100",
   "status": "proved",
   "theorems": [
    "C100_exact_sets_signalled_together",
    "C100_exact_end_to_end",
    "C100_exact_network_independent",
    "C100_eps_end_to_end",
    "C100_approx_end_to_end",
    "C100_latest_end_to_end",
    "C100_approx_network_independent"
   ],
   "note": ""
  },
  {
   "property": "C101",
   "status": "partial",
   "theorems": [
    "C101_exact_only_new_inputs",
    "C101_approx_only_new_inputs",
    "C101_exact_unhindered_partial",
    "C101_approx_unhindered",
    "C101_exact_former_message",
    "C101_approx_former_message",
    "C101_former_input_refuted",
    "C101_cache_refuted"
   ],
   "note": "Proved for both synchronizers: former filters never contribute to a set, and the new filters get the results of a new synchronizer; for TimeSynchronizer only if the former filters' messages have stamps: one without blocks it for ever (C101_former_input_refuted). False of Cache (C101_cache_refuted)."
  },
  {
   "property": "C102",
   "status": "proved",
   "theorems": [
    "C102_sequencer",
    "C102_aligner",
    "C102_exact",
    "C102_eps",
    "C102_approx",
    "C102_cache",
    "C102_latest"
   ],
   "note": ""
  },
  {
   "property": "C103",
   "status": "proved",
   "theorems": [
    "C103_eps_reads_streams",
    "C103_reading_is_deterministic",
    "C103_eps_order_independent",
    "C103_eps_prefix",
    "C103_queue_of_everything_suffices",
    "C103_eps_network_independent"
   ],
   "note": ""
  },
  {
   "property": "C104",
   "status": "proved",
   "theorems": [
    "C104_eps_outputs_exactly_the_groups"
   ],
   "note": ""
  },
  {
   "property": "C105",
   "status": "proved",
   "theorems": [
    "C105_exact_set_survives",
    "C105_exact_bounded_complete",
    "C105_exact_bounded_is_unbounded",
    "C105_exact_bounded_order_independent",
    "C105_lag_suffices",
    "C105_lag_outputs_everything",
    "C105_exact_bounded_end_to_end",
    "C105_queue_bound_is_exact"
   ],
   "note": ""
  },
  {
   "property": "C106",
   "status": "partial",
   "theorems": [
    "C106_drop_call_returns_iff",
    "C106_how_it_fails",
    "C106_drop_callbacks_see_the_set",
    "C106_other_forms_always_fail",
    "C106_const_pointers_work",
    "C106_any_form_refuted"
   ],
   "note": "Proved for shared pointers to const messages and const events. False of all other documented forms (C106_any_form_refuted): M and const M & dereference null, shared_ptr<M> and MessageEvent<M> fail assert(create_); a callback with only such parameters fails at every drop (C106_other_forms_always_fail)."
  },
  {
   "property": "C107",
   "status": "proved",
   "theorems": [
    "C107_seq_sorts",
    "C107_seq_nothing_lost",
    "C107_seq_passes_sorted",
    "C107_seq_order_independent",
    "C107_seq_sort_unique"
   ],
   "note": ""
  },
  {
   "property": "C108",
   "status": "proved",
   "theorems": [
    "C108_aligner_keeps_all",
    "C108_aligner_merge_order",
    "C108_aligner_merges",
    "C108_merge_unique",
    "C108_aligner_deterministic",
    "C108_aligner_forwards"
   ],
   "note": ""
  },
  {
   "property": "C109",
   "status": "proved",
   "theorems": [
    "C109_aligner_bounded_lag",
    "C109_aligner_zero_timeout"
   ],
   "note": ""
  },
  {
   "property": "C110",
   "status": "proved",
   "theorems": [
    "C110_approx_outputs_groups",
    "C110_approx_outputs_groups_unlimited",
    "C110_approx_none_missing_needed"
   ],
   "note": ""
  },
  {
   "property": "C111",
   "status": "proved",
   "theorems": [
    "C111_exact_sorted_queue",
    "C111_exact_sorted_complete",
    "C111_eps_sorted_groups",
    "C111_approx_lag_outputs_groups",
    "C111_approx_lag_outputs_groups_unlimited",
    "C111_sorted_ahead_at_most_one",
    "C111_aligner_arrives_in_order",
    "C111_aligner_then_exact",
    "C111_aligner_then_eps",
    "C111_aligner_then_approx"
   ],
   "note": ""
  },
  {
   "property": "C112",
   "status": "partial",
   "theorems": [
    "C112_safe_iff_disconnected",
    "C112_destruction_completes",
    "C112_cache_partial",
    "C112_synchronizer_partial",
    "C112_time_sequencer_partial",
    "C112_input_aligner_partial",
    "C112_passthrough_refuted",
    "C112_timer_refuted",
    "C112_time_sequencer_refuted"
   ],
   "note": "Proved for Cache and the synchronizers, and for TimeSequencer and InputAligner if the destroying thread is the one that runs their timer. False of PassThrough (no destructor), and of TimeSequencer and InputAligner if another thread runs the timer: cancelling does not wait for a running timer callback (C112_timer_refuted)."
  },
  {
   "property": "C113",
   "status": "partial",
   "theorems": [
    "C113_last_to_first_partial",
    "C113_first_to_last_partial",
    "C113_first_to_last_refuted"
   ],
   "note": "False with vectors that destroy their elements first to last (libstdc++): use after free exactly if the chain owns a filter after the first whose destructor disconnects, such as Cache or TimeSequencer (C113_first_to_last_refuted, for every such chain). Proved for all other chains, and for vectors that destroy last to first. Filters of a chain within the chain are not taken to be owned."
  },
  {
   "property": "C114",
   "status": "partial",
   "theorems": [
    "C114_as_if_called_one_after_the_other",
    "C114_mutex_held_refuted",
    "C114_cache_callbacks_query",
    "C114_cache_add_refuted",
    "C114_sequencer_callbacks_add",
    "C114_aligner_refuted",
    "C114_exact_refuted",
    "C114_epsilon_refuted",
    "C114_approximate_refuted",
    "C114_latest_refuted",
    "C114_sequencer_keeps_newer_refuted"
   ],
   "note": "Proved: whatever returns takes effect in order, for every filter; Cache callbacks may query and resize; TimeSequencer callbacks may add. False otherwise: InputAligner and all synchronizer policies hold their mutex while signalling, so any call that locks it blocks for ever; so does adding to a Cache from its own callback (the signal's mutex); a TimeSequencer drops a message its callback adds although newer than all delivered messages, if the same tick delivers a still newer one later. Setters without a lock (setInputPeriod, setRateConfig) are not called by callbacks in the model of the filters that hold their mutex."
  },
  {
   "property": "C115",
   "status": "partial",
   "theorems": [
    "C115_kept_messages_do_not_change_partial",
    "C115_received_as_sent_partial",
    "C115_copies_demanded",
    "C115_pointer_events_never_change",
    "C115_lone_callback_refuted",
    "C115_cache_order_refuted"
   ],
   "note": "Proved without restriction if all events are made from message pointers (C115_pointer_events_never_change), as Subscriber and add(message) do. False for events constructed with nonconst_need_copy = false: a lone callback with non-const access writes to the object that a Cache stores (C115_lone_callback_refuted, for every state and network), which can put the cache out of order. Proved for such events whenever they are not handed to a lone mutable callback or a mutable synchronizer callback."
  },
  {
   "property": "C116",
   "status": "partial",
   "theorems": [
    "C116_queries_exact_partial",
    "C116_elem_before_partial",
    "C116_elem_after_partial",
    "C116_surrounding_partial",
    "C116_large_cache_refuted",
    "C116_large_cache_reachable_refuted"
   ],
   "note": "Proved for sizes up to INT_MAX: with the int and unsigned int variables of the code all queries equal those on unbounded integers, in every history. False above: in a cache of more than INT_MAX messages getSurroundingInterval is undefined behaviour, getElemAfterTime never finds a message and getElemBeforeTime finds none beyond the first 2^31 (C116_large_cache_refuted, C116_large_cache_reachable_refuted)."
  },
  {
   "property": "C117",
   "status": "partial",
   "theorems": [
    "C117_content_of_the_source_partial",
    "C117_only_exceptions",
    "C117_callbacks_see_whole_messages",
    "C117_null_messages",
    "C117_incomplete_copy_refuted",
    "C117_default_event_refuted",
    "C117_null_event_refuted",
    "C117_shared_object_refuted"
   ],
   "note": "Proved for callbacks of all networks of filters (C117_callbacks_see_whole_messages), and for programs using events directly until copying a message throws; a factory that throws does no harm. False after a throwing copy: message_copy_ is set before the message is copied into it, so the next getMessage of the same MessageEvent<M> returns the incomplete copy (C117_incomplete_copy_refuted). Null messages: exact condition under which they can be signalled (C117_null_messages). Refuted too: events without a factory (default constructed), factories that return an object in use."
  },
  {
   "property": "C118",
   "status": "partial",
   "theorems": [
    "C118_const_events_may_be_shared",
    "C118_calls_one_at_a_time_partial",
    "C118_every_call_returns",
    "C118_incomplete_message_refuted",
    "C118_two_copies_refuted",
    "C118_data_race_refuted"
   ],
   "note": "Proved for MessageEvent<M const> (all that filters pass on) and for events that demand no copies, for all schedules; and for all events if no two calls overlap. False for a MessageEvent<M> that demands copies: a const call writes message_copy_, another thread may then get a message that is not yet filled, and the threads may get different copies (C118_incomplete_message_refuted, C118_two_copies_refuted, C118_data_race_refuted)."
  },
  {
   "property": "C119",
   "status": "proved",
   "theorems": [
    "C119_in_time",
    "C119_at_most_one_period_late",
    "C119_queue_for_the_delay_refuted"
   ],
   "note": "All histories with times (for system-clock stamps, as for C39). That the timer ticks in time is an assumption, expressed in the clock that dispatch reads. C119_queue_for_the_delay_refuted: a queue for the messages of the delay alone loses messages."
  },
  {
   "property": "C120",
   "status": "proved",
   "theorems": [
    "C120_callbacks_never_fail",
    "C120_adding_in_a_callback_deadlocks",
    "C120_no_calls_no_difference",
    "C120_parameters_in_force",
    "C120_callbacks_keep_most_recent",
    "C120_span_within_the_interval_in_force",
    "C120_each_set_optimal",
    "C120_each_set_found",
    "C120_order_of_arrival_is_irrelevant"
   ],
   "note": "All callbacks that call this policy's setters (or add); calls to other objects from the callback are C114. Optimality assumes, as for C32, streams in time order that respect every lower bound ever in force."
  },
  {
   "property": "C121",
   "status": "proved",
   "theorems": [
    "C121_callbacks_never_fail",
    "C121_locking_in_a_callback_deadlocks",
    "C121_no_calls_no_difference",
    "C121_one_callback_per_message",
    "C121_status_seen_by_a_callback",
    "C121_ordered",
    "C121_accounting",
    "C121_newest_input",
    "C121_dispatch_maximal",
    "C121_never_overtakes",
    "C121_prediction",
    "C121_callbacks_reach"
   ],
   "note": "All callbacks that set periods of existing inputs (the index is a template argument), read statuses, add or dispatch; the timeout is not negative (C47 shows the need). Calls to other objects from the callback are C114."
  },
  {
   "property": "C122",
   "status": "proved",
   "theorems": [
    "C122_configurations_of_callbacks_do_not_count",
    "C122_late_configuration_does_not_count",
    "C122_sets_are_the_latest_messages",
    "C122_safe_iff_enough_started",
    "C122_clocks_of_one_source_never_throw",
    "C122_clock_of_another_source_silences",
    "C122_adding_in_a_callback_blocks"
   ],
   "note": "All callbacks that set configurations and clocks, or add. That a clock of another source silences the policy is stated for callbacks that always leave such a clock set and no clock set from outside. Calls to other objects from the callback are C114."
  },
  {
   "property": "C123",
   "status": "partial",
   "theorems": [
    "C123_in_use_never_fails",
    "C123_timer_in_use_is_called",
    "C123_sequencer_destruction",
    "C123_aligner_destruction",
    "C123_aligner_needs_no_running_callback_refuted",
    "C123_cancelling_first_suffices",
    "C123_setup_replaces_the_timer"
   ],
   "note": "Proved for TimeSequencer (safe exactly if the callback does not run). False for InputAligner, whose destructor does not cancel the timer: safe exactly if no executor holds a reference to a timer of the filter. Proved that cancelling first would suffice. What executors do with timers (weak reference in the node, strong one from finding the timer ready to the end of its callback, check for cancellation in between) is an assumption about rclcpp."
  },
  {
   "property": "C124",
   "status": "partial",
   "theorems": [
    "C124_constructed_iff",
    "C124_subscribes_as_told",
    "C124_accepted_arguments_partial",
    "C124_same_arguments_refuted",
    "C124_messages_reach_callbacks"
   ],
   "note": "Accepted exactly if node, message type and topic are given by position and all else by keyword; a QoS profile by position, or the topic or message type by keyword, raises an exception although the documentation promises identical arguments. Messages are passed on up to the first callback that raises an exception or registers a callback (C86). The parameters of rclpy's create_subscription are an assumption; __getattr__ is not modelled."
  }
 ]
}