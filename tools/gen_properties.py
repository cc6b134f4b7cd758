#!/usr/bin/env python3
"""Writes /verif/properties.jsonl (kept as a script so the list is easy to extend)."""
import json
H = "include/message_filters/"
P = []
def p(title, statement, quantifier, why, anchors):
    P.append(dict(id="C%02d" % (len(P) + 1), title=title, statement=statement,
                  quantifier=quantifier, why_tests_cant=why, anchors=anchors))

# ---- signals, connections, events
p("Filter fan-out",
  "A message emitted by a filter is delivered exactly once to every callback that is registered and not disconnected at that moment, in registration order, and to nothing else.",
  "every sequence of registerCallback, Connection::disconnect and emitted messages on one filter",
  "a test fixes a few registrations; the claim is about every history of registrations and disconnections",
  [H+"signal1.hpp:Signal1", H+"simple_filter.hpp:SimpleFilter::registerCallback", "src/connection.cpp:Connection::disconnect"])
p("Disconnect is local and idempotent",
  "Disconnecting a connection removes exactly the callback it was returned for; repeating it, or disconnecting a default-constructed Connection, changes nothing; other callbacks keep their relative order.",
  "every history and every connection, including connections disconnected several times",
  "must hold for every list of registered callbacks and every position in it",
  [H+"signal1.hpp:Signal1::removeCallback", "src/connection.cpp:Connection::disconnect"])
p("Mutable callbacks of single-output filters are isolated",
  "When a single-output filter has two or more callbacks, or the event demands copies, a callback taking a non-const message works on a private copy: whatever it writes, every other callback and the publisher see the original content. With exactly one callback and a no-copy event it receives the original object, without copying.",
  "every number of callbacks, every mix of the parameter forms, every mutation a callback performs, every message content",
  "mutation by one callback of what another one sees depends on the whole callback list and on what callbacks do",
  [H+"signal1.hpp:CallbackHelper1T::call", H+"parameter_adapter.hpp:ParameterAdapter", H+"message_event.hpp:MessageEvent::copyMessageIfNecessary"])
p("Mutable callbacks of synchronizers are isolated",
  "When a synchronizer has two or more callbacks, a callback taking non-const messages cannot change what the other callbacks see.",
  "every number of callbacks, every mix of parameter forms, every tuple of events",
  "same as for single-output filters, but through the N-ary signal",
  [H+"signal9.hpp:CallbackHelper9T::call", H+"signal9.hpp:Signal9::call"])
p("A copying event copies once",
  "Asking a non-const MessageEvent for its message repeatedly yields the same object each time, a private copy made at most once when the event demands copies and the original otherwise; copying an event never shares the private copy; metadata (receipt time) is preserved.",
  "every sequence of getMessage calls and event copies",
  "depends on the order of calls on the event object",
  [H+"message_event.hpp:MessageEvent"])
# ---- cache
p("Cache contents are sorted by time stamp, ties in arrival order",
  "After any sequence of additions and size changes the cached messages are ordered by time stamp and messages with equal stamps are in arrival order.",
  "every sequence of add / setCacheSize with arbitrary, also out-of-order, stamps",
  "out-of-order insertion into every possible content",
  [H+"cache.hpp:Cache::add"])
p("Cache is bounded",
  "After every addition the cache holds at most the configured number of messages (the last non-zero size set). Changing the size by itself neither adds nor removes messages.",
  "every sequence of operations, including shrinking the size",
  "size changes interleave arbitrarily with additions",
  [H+"cache.hpp:Cache::add", H+"cache.hpp:Cache::setCacheSize"])
p("Cache keeps the most recent N",
  "If messages arrive with non-decreasing stamps the cache holds exactly the last N messages added. In general exactly the oldest-stamped messages present before an insertion are evicted, and no more than needed.",
  "every sequence of additions",
  "history property over unbounded streams",
  [H+"cache.hpp:Cache::add"])
p("getInterval is exact",
  "getInterval(start,end) returns exactly the cached messages with start <= stamp <= end, in order, for every start and end, also when start > end.",
  "every reachable cache and every pair of times",
  "two index scans over arbitrary contents with duplicates",
  [H+"cache.hpp:Cache::getInterval"])
p("getSurroundingInterval is the tightest surrounding slice",
  "getSurroundingInterval returns the contiguous slice that starts at the last message not after start (or at the oldest message if there is none) and ends at the first message from there that is not before end (or at the newest message); empty for an empty cache.",
  "every reachable cache and every pair of times",
  "boundary behaviour with duplicates, empty and one-element caches",
  [H+"cache.hpp:Cache::getSurroundingInterval"])
p("getElemBeforeTime / getElemAfterTime are exact",
  "getElemBeforeTime(t) returns the newest cached message stamped strictly before t (the last arrived among equals) and null iff there is none; getElemAfterTime(t) the oldest one stamped strictly after t (the first arrived among equals) and null iff there is none.",
  "every reachable cache and every time",
  "strictness and ties over arbitrary contents",
  [H+"cache.hpp:Cache::getElemBeforeTime", H+"cache.hpp:Cache::getElemAfterTime"])
p("getLatestTime / getOldestTime bound the contents",
  "On a non-empty cache getOldestTime and getLatestTime return the smallest and the largest cached stamp; on an empty cache they return the zero time.",
  "every reachable cache",
  "needs the sortedness invariant for all histories",
  [H+"cache.hpp:Cache::getLatestTime", H+"cache.hpp:Cache::getOldestTime"])
p("Cache forwards everything",
  "Every message added to the cache is forwarded downstream immediately, exactly once and in order, whether or not it stays in the cache.",
  "every history",
  "universal over histories",
  [H+"cache.hpp:Cache::add"])
p("A cache constructed with size 0 is still usable",
  "Constructing Cache with cache_size 0 (which the setter rejects) leaves the cache with a well-defined capacity.",
  "every history after such a construction",
  "the failure is an indeterminate read, invisible to a test",
  [H+"cache.hpp:Cache::Cache", H+"cache.hpp:Cache::setCacheSize"])
p("Mixed clock sources are rejected without corrupting the cache",
  "All cached messages always carry the same clock source; a query never changes the cache; an interval query starting at, or an element query for, a time of another clock source on a non-empty cache throws; an end of another clock source throws iff a cached message would have to be compared with it; adding a message of another clock source never leaves a cache with mixed sources.",
  "every history with arbitrary clock sources on stamps and queries",
  "exceptional paths in the middle of an update, from every state",
  [H+"cache.hpp:Cache", H+"message_traits.hpp:TimeStamp"])
# ---- exact time
p("ExactTime sets match exactly",
  "Every set passed to the callback contains, for each input i, a message that was added on input i, and all stamps in the set are equal.",
  "every number of inputs and every interleaving of additions",
  "holds for all interleavings, duplicates, late messages",
  [H+"sync_policies/exact_time.hpp:ExactTime::add", H+"sync_policies/exact_time.hpp:ExactTime::checkTuple"])
p("ExactTime completeness",
  "With an unbounded queue and strictly increasing stamps on every input, a stamp is output iff a message with that stamp has been added on every input, exactly once, at the moment the last of them arrives, with exactly those messages.",
  "every number of inputs, every interleaving of such streams",
  "universal over interleavings",
  [H+"sync_policies/exact_time.hpp:ExactTime::checkTuple", H+"sync_policies/exact_time.hpp:ExactTime::clearOldTuples"])
p("ExactTime drop accounting",
  "Every message added is accounted for: it is in exactly one of: an output set, a set reported to the drop callback, the pending sets, or it was replaced by a later message with the same stamp on the same input.",
  "every history, every queue size",
  "conservation law over all histories",
  [H+"sync_policies/exact_time.hpp:ExactTime::drop_range", H+"sync_policies/exact_time.hpp:ExactTime::call_drop_signal"])
p("ExactTime queue bound, oldest dropped first",
  "With queue size q > 0 at most q incomplete sets are pending after every addition; whatever is dropped because of the bound is older than everything kept; outputting a set drops every pending set that is not newer and keeps every newer one.",
  "every history, every q",
  "bound must hold in every reachable state",
  [H+"sync_policies/exact_time.hpp:ExactTime::checkTuple", H+"sync_policies/exact_time.hpp:ExactTime::clearOldTuples"])
p("ExactTime output is in time order",
  "If every input delivers strictly increasing stamps, output stamps are strictly increasing, for every queue size. (Without the premise it is false: late messages can form an older set.)",
  "every number of inputs, every interleaving, every queue size",
  "universal over interleavings",
  [H+"sync_policies/exact_time.hpp:ExactTime"])
p("ExactTime is independent of cross-input arrival order",
  "For strictly increasing inputs and an unbounded queue, the sequence of output sets depends only on the per-input streams and not on how they were interleaved.",
  "every two interleavings of the same streams",
  "the number of interleavings is unbounded",
  [H+"sync_policies/exact_time.hpp:ExactTime"])
# ---- approximate epsilon
p("ApproximateEpsilonTime sets fit in epsilon",
  "In every output set the difference between the newest and the oldest stamp is at most epsilon.",
  "every number of inputs, every history, every epsilon >= 0",
  "universal over histories",
  [H+"sync_policies/approximate_epsilon_time.hpp:ApproximateEpsilonTime::check_all_timestamp_within_epsilon"])
p("ApproximateEpsilonTime uses each message at most once, in order",
  "For each input, the messages appearing in the output sets form a subsequence of the messages added on that input (used at most once, sets never cross).",
  "every history",
  "relates whole input history to whole output history",
  [H+"sync_policies/approximate_epsilon_time.hpp:ApproximateEpsilonTime::process"])
p("ApproximateEpsilonTime is bounded",
  "After every addition each input has at most queue_size pending messages and some input has none. When an input overflows, its first received message is the one dropped.",
  "every history, every queue size",
  "reachable-state invariant",
  [H+"sync_policies/approximate_epsilon_time.hpp:ApproximateEpsilonTime::add"])
p("ApproximateEpsilonTime::add terminates",
  "For epsilon >= 0 every addition terminates. (For a negative epsilon and two or more inputs it can loop forever.)",
  "every history; every epsilon",
  "termination cannot be observed by testing",
  [H+"sync_policies/approximate_epsilon_time.hpp:ApproximateEpsilonTime::process"])
p("ApproximateEpsilonTime does not discard a usable message",
  "With time-ordered inputs and no queue overflow, a message is discarded unmatched only if no set of pending or future messages containing it fits in epsilon.",
  "every number of inputs, every history and every future",
  "quantifies over all future messages",
  [H+"sync_policies/approximate_epsilon_time.hpp:ApproximateEpsilonTime::erase_old_events_if_on_sync_with_ts"])
# ---- approximate time
p("ApproximateTime never fails an internal check",
  "No addition makes ApproximateTime fail an assertion, access an empty queue, or loop forever, whatever the stamps, the order of arrival, the bounds and the (non-negative) age penalty; every addition completes.",
  "every number of inputs, every history, every queue size >= 1, arbitrary (also out-of-order) stamps",
  "nested data-dependent loops; termination and assertion freedom over all inputs",
  [H+"sync_policies/approximate_time.hpp:ApproximateTime::process", H+"sync_policies/approximate_time.hpp:ApproximateTime::add"])
p("ApproximateTime uses each message at most once and sets never cross",
  "For each input, the messages appearing in the output sets form a subsequence of the messages added on that input; every output set has one message per input.",
  "every history, also with queue overflow and out-of-order stamps",
  "relates whole input history to whole output history",
  [H+"sync_policies/approximate_time.hpp:ApproximateTime::publishCandidate", H+"sync_policies/approximate_time.hpp:ApproximateTime::recoverAndDelete"])
p("ApproximateTime is bounded",
  "After every addition each input has at most queue_size messages pending.",
  "every history, every queue size >= 1",
  "reachable-state invariant",
  [H+"sync_policies/approximate_time.hpp:ApproximateTime::add"])
p("ApproximateTime respects the maximum interval",
  "Every output set spans at most the configured maximum interval duration.",
  "every history with a fixed maximum interval, arbitrary stamps",
  "candidates are replaced by later candidates without re-checking the maximum",
  [H+"sync_policies/approximate_time.hpp:ApproximateTime::process"])
p("ApproximateTime outputs optimal sets",
  "With time-ordered inputs that respect the configured inter-message lower bounds, every output set is optimal: there is an input (the pivot), whose message in this set is the latest of some set of messages arriving after the previous output set and not after this set's, such that no set made of messages arriving after the previous output set and containing the pivot's message - including messages that have not arrived yet - is better, where a set is better iff it starts later by more than (1+age_penalty) times how much later it ends. Up to the rounding of the scaled durations: better by more than a quarter of a nanosecond.",
  "every number of inputs, every history, every future of the history",
  "quantifies over all competing sets and all futures",
  [H+"sync_policies/approximate_time.hpp:ApproximateTime::process", H+"sync_policies/approximate_time.hpp:ApproximateTime::getVirtualTime"])
p("ApproximateTime sets are contiguous",
  "Under the same premises and without queue overflow, between two consecutive output sets there is an input (the pivot) on which no message is skipped that could be part of a set within the maximum interval; with an unlimited interval it is the input whose first message after the previous set is the latest.",
  "every number of inputs, every history",
  "universal over histories",
  [H+"sync_policies/approximate_time.hpp:ApproximateTime::process"])
p("ApproximateTime is independent of cross-input arrival order",
  "Under the same premises (including no queue overflow) the output sets depend only on the per-input streams: for any two interleavings of (prefixes of) the same streams one output sequence is a prefix of the other.",
  "every two interleavings",
  "the number of interleavings is unbounded; early publication must never change the result",
  [H+"sync_policies/approximate_time.hpp:ApproximateTime"])
p("ApproximateTime publishes perfect matches immediately",
  "If, with no candidate pending and no messages dropped, the next message of every input has the same stamp, the set is output during the addition that completes it.",
  "every reachable state",
  "reachable-state property",
  [H+"sync_policies/approximate_time.hpp:ApproximateTime::process"])
# ---- latest time
p("LatestTime outputs the latest message of every input",
  "Every output contains, for each input, the most recently added message of that input; nothing is output before every input has received a message; at most one output per addition, and only on an input's second or later message.",
  "every history, every clock behaviour, every floating-point rounding",
  "depends on floating-point rates and clock readings",
  [H+"sync_policies/latest_time.hpp:LatestTime::add", H+"sync_policies/latest_time.hpp:LatestTime::publish"])
p("LatestTime is memory safe for any arrival order",
  "No sequence of additions makes LatestTime access rate data that does not exist.",
  "every order in which inputs receive their messages",
  "tests always start the inputs in index order",
  [H+"sync_policies/latest_time.hpp:LatestTime::add", H+"sync_policies/latest_time.hpp:LatestTime::initialize_rate"])
p("LatestTime rate estimation terminates and ignores stalled clocks",
  "compute_hz always terminates, after at most two passes, and leaves the estimate untouched and reports invalid when the clock has not advanced or its source differs.",
  "every rate state, every clock reading",
  "loop with continue over floating-point comparisons (also NaN)",
  [H+"sync_policies/latest_time.hpp:LatestTime::Rate::compute_hz"])
p("LatestTime configuration survives constructing the synchronizer",
  "Rate configuration set on a policy object is in force in a Synchronizer constructed from that policy.",
  "every configuration",
  "copy semantics of every field",
  [H+"sync_policies/latest_time.hpp:LatestTime::operator="])
# ---- time sequencer
p("TimeSequencer output is in temporal order",
  "The callbacks are invoked in non-decreasing stamp order, over the whole life of the sequencer.",
  "every history of additions and timer ticks, every clock behaviour",
  "interleavings of additions and ticks with late messages",
  [H+"time_sequencer.hpp:TimeSequencer::dispatch", H+"time_sequencer.hpp:TimeSequencer::add"])
p("TimeSequencer never delivers early and always delivers what is due",
  "A message is delivered only at a tick at which stamp + delay <= now; after a tick no queued message is overdue.",
  "every history and every monotone clock",
  "timer and clock interleavings",
  [H+"time_sequencer.hpp:TimeSequencer::dispatch"])
p("TimeSequencer accounting",
  "Every added message is either rejected because it is older than an already delivered one, evicted by the queue bound, still queued or delivered exactly once.",
  "every history",
  "conservation over histories",
  [H+"time_sequencer.hpp:TimeSequencer"])
p("TimeSequencer keeps the newest queue_size messages",
  "With queue size q > 0 at most q messages are queued and when the bound is exceeded exactly one message, an oldest one, is evicted.",
  "every history, also with equal stamps",
  "ties in the multiset",
  [H+"time_sequencer.hpp:TimeSequencer::add"])
p("TimeSequencer works with ROS header stamps",
  "Adding a message with a std_msgs header (ROS clock source) to a sequencer never throws.",
  "every message",
  "the repository's only such test is marked SKIP_TEST",
  [H+"time_sequencer.hpp:TimeSequencer::add", H+"message_traits.hpp:TimeStamp"])
# ---- input aligner
p("InputAligner output is globally ordered",
  "Over all outputs together, messages are forwarded in non-decreasing stamp order.",
  "every number of inputs, every history of additions, period settings and dispatches",
  "universal over interleavings",
  [H+"input_aligner.hpp:InputAligner::dispatchFirstMessage", H+"input_aligner.hpp:InputAligner::addEvent"])
p("InputAligner accounting",
  "For each input, every added message is forwarded exactly once on the output of the same index, still queued, or was counted as dropped on arrival, and the counters of getQueueStatus equal these numbers.",
  "every history",
  "conservation over histories",
  [H+"input_aligner.hpp:InputAligner::EventQueue", H+"input_aligner.hpp:InputAligner::getQueueStatus"])
p("InputAligner drops nothing that respects its period",
  "While an input stays active, a message stamped at least one period after that input's previous message is never dropped.",
  "every history",
  "interaction of all inputs with look-ahead",
  [H+"input_aligner.hpp:InputAligner::EventQueue::firstTimeStamp"])
p("InputAligner dispatch is maximal and terminates",
  "dispatchMessages terminates (timeout >= 0) and stops only when nothing is queued or the oldest queued message must wait for an active empty input that has not timed out.",
  "every reachable state, every non-negative timeout",
  "termination; liveness of the loop",
  [H+"input_aligner.hpp:InputAligner::dispatchMessages"])
p("InputAligner never overtakes an active input",
  "A message is forwarded only if every other input has a queued message that is not older, is inactive, or predicts its next message no earlier.",
  "every reachable state",
  "reachable-state property",
  [H+"input_aligner.hpp:InputAligner::dispatchFirstMessage"])
# ---- chain, pass through, wiring
p("Chain is the composition of its filters",
  "A message added to a chain traverses all filters in the order they were added and the output of the last filter, and only of the last one, reaches the chain's callbacks exactly once.",
  "every number of filters and every filter behaviour, filters added between messages",
  "dynamic number of filters",
  [H+"chain.hpp:Chain::addFilter", H+"chain.hpp:Chain::add", H+"pass_through.hpp:PassThrough"])
p("Chain retrieval by index",
  "addFilter returns consecutive indices from 0 and getFilter(i) returns the i-th added filter, null for every i not below the number of filters.",
  "every number of filters, every index",
  "universal over sizes",
  [H+"chain.hpp:Chain::getFilter", H+"chain.hpp:ChainBase::getFilter"])
p("Reconnecting replaces the input",
  "After connectInput(f) a filter receives messages from f only, each once, whatever it was connected to before.",
  "every sequence of connections, every filter kind",
  "history of reconnections",
  [H+"pass_through.hpp:PassThrough::connectInput", H+"cache.hpp:Cache::connectInput", H+"time_sequencer.hpp:TimeSequencer::connectInput", H+"synchronizer.hpp:Synchronizer::connectInput", H+"chain.hpp:Chain::connectInput"])
p("Destroying a filter detaches it",
  "After a filter is destroyed no upstream message is delivered to it: emitting upstream is safe.",
  "every wiring and every order of operations, every filter kind",
  "use after free is not observable by ordinary tests",
  [H+"cache.hpp:Cache::~Cache", H+"pass_through.hpp:PassThrough", H+"chain.hpp:Chain", H+"synchronizer.hpp:Synchronizer::~Synchronizer"])
p("Synchronizer input i feeds slot i",
  "After connectInput(f0..fk) a message emitted by f_i is added to slot i of the policy and to no other slot.",
  "every number of inputs and every reconnection",
  "universal over wirings",
  [H+"synchronizer.hpp:Synchronizer::connect", H+"synchronizer.hpp:Synchronizer::disconnectAll"])
# ---- subscriber
p("Subscriber holds at most one subscription",
  "At any time a Subscriber has at most one live subscription, for the last non-empty topic requested; unsubscribe leaves none; re-subscribing restores topic, QoS and options of the last subscription.",
  "every sequence of subscribe/unsubscribe calls of every overload",
  "histories of overloads",
  [H+"subscriber.hpp:Subscriber::subscribe", H+"subscriber.hpp:Subscriber::unsubscribe"])
# ---- python
p("Python TimeSynchronizer sets match exactly",
  "Every set delivered has equal stamps, one message per input; each stored message is delivered at most once; each input stores at most queue_size messages.",
  "every history, every number of inputs",
  "universal over interleavings",
  ["src/message_filters/__init__.py:TimeSynchronizer.add"])
p("Python ApproximateTimeSynchronizer sets fit in slop",
  "Every set delivered has one message per input, spans less than slop, contains the message just added, and its messages are removed (delivered at most once); each input stores at most queue_size messages.",
  "every history, every number of inputs, every slop",
  "product search over arbitrary queues",
  ["src/message_filters/__init__.py:ApproximateTimeSynchronizer.add"])
p("Python Cache keeps the last N and answers queries exactly",
  "The Python cache holds exactly the last cache_size accepted messages in arrival order; getInterval returns exactly those within the bounds; getElemAfterTime / getElemBeforeTime return the oldest / newest one not before / not after the stamp.",
  "every history, every query",
  "universal over histories, also out of order",
  ["src/message_filters/__init__.py:Cache"])
# ---- concurrency
p("Concurrent use of a locked filter is equivalent to some sequential use",
  "For every schedule of threads calling add / dispatch on a filter, the final state and the output are those of some sequential order of the calls that respects each thread's program order.",
  "every number of threads, every schedule",
  "schedules cannot be enumerated by tests",
  [H+"sync_policies/approximate_time.hpp:data_mutex_", H+"sync_policies/exact_time.hpp:mutex_", H+"input_aligner.hpp:mutex_"])
p("Concurrent cache additions are forwarded in cache order",
  "For every schedule of threads adding to a cache every message is forwarded exactly once, and the order of forwarding equals the order of insertion.",
  "every schedule",
  "forwarding happens outside the lock",
  [H+"cache.hpp:Cache::add"])
p("ApproximateTime makes progress",
  "With time-ordered inputs respecting the bounds and no overflow, a set does not wait forever: once every input has received a message later than the end of the earliest possible set (within the maximum interval) that follows the sets output so far, the next set has been output.",
  "every number of inputs, every history",
  "liveness over all histories",
  [H+"sync_policies/approximate_time.hpp:process"])
p("Copying an ApproximateTime policy is safe",
  "A policy copied at any time (copy constructor, assignment) behaves like the original from then on.",
  "every reachable state of the policy, every continuation",
  "depends on the internal state at the time of the copy",
  [H+"sync_policies/approximate_time.hpp:ApproximateTime(const ApproximateTime &)", H+"sync_policies/approximate_time.hpp:operator="])
p("ApproximateTime warns about exactly the bound violations",
  "A warning about an input is logged only if two consecutive messages of that input are out of order or closer than the configured lower bound, and is logged whenever that happens.",
  "every history, every bound",
  "universal over histories",
  [H+"sync_policies/approximate_time.hpp:checkInterMessageBound"])
p("ApproximateEpsilonTime outputs as soon as the heads fit",
  "When an addition leaves every input with a pending message and the first received pending messages of all inputs span at most epsilon (bound included), exactly that set is output by the same call.",
  "every history, every addition, every number of inputs, every epsilon >= 0",
  "liveness over every reachable state, including the boundary stamp difference",
  [H + "sync_policies/approximate_epsilon_time.hpp:ApproximateEpsilonTime::process", H + "sync_policies/approximate_epsilon_time.hpp:ApproximateEpsilonTime::check_all_timestamp_within_epsilon"])
p("LatestTime per-input rate configuration reaches its input",
  "With setRateConfigPerMessage, the i-th configuration governs the rate estimate of input i.",
  "every configuration, every order in which inputs receive their first messages",
  "tests start inputs in one order and do not configure them individually",
  [H+"sync_policies/latest_time.hpp:LatestTime::initialize_rate", H+"sync_policies/latest_time.hpp:LatestTime::setRateConfigPerMessage"])
p("LatestTime survives a change of clock source",
  "After setClock with a clock of another source, additions do not throw and output resumes.",
  "every history, every point of change",
  "depends on which inputs started under which clock",
  [H+"sync_policies/latest_time.hpp:LatestTime::setClock", H+"sync_policies/latest_time.hpp:LatestTime::find_pivot"])
p("LatestTime outputs on the fastest input that is not late",
  "An addition triggers an output if and only if the clock has advanced since the input's previous reading, every input has received a message, and the input has the largest positive rate among the inputs that are not late (the lowest index among equal rates).",
  "every history under one clock source, every floating-point behaviour without NaN rates",
  "selection over all combinations of rates and lateness",
  [H+"sync_policies/latest_time.hpp:LatestTime::find_pivot", H+"sync_policies/latest_time.hpp:LatestTime::add"])
p("LatestTime with periodic inputs outputs at the rate of the fastest",
  "With strictly periodic inputs and no overdue message, once every input has a message, outputs happen exactly on the messages of the fastest input among those that have received two messages.",
  "every number of inputs, every set of periods and phases, every interleaving on schedule",
  "tests use one set of rates",
  [H+"sync_policies/latest_time.hpp:LatestTime::add", H+"sync_policies/latest_time.hpp:LatestTime::find_pivot", H+"sync_policies/latest_time.hpp:LatestTime::Rate::compute_hz"])
p("LatestTime rate estimate lies within the observed rates",
  "With smoothing factors in [0, 1], the rate estimate of an input always lies between the smallest and the largest instantaneous rate observed, the error estimate never exceeds their distance, and with a constant period the estimate is exact.",
  "every sequence of increasing clock readings, every configuration",
  "universal over readings and smoothing factors",
  [H+"sync_policies/latest_time.hpp:LatestTime::Rate::compute_hz"])
p("Callbacks may use the filter that calls them",
  "A callback may disconnect itself, register another callback or emit another message on the filter that is calling it, and the call returns.",
  "every set of callbacks, every operation performed by a callback",
  "a single deadlocking combination is enough, tests use passive callbacks",
  [H+"signal1.hpp:Signal1::call", H+"signal1.hpp:Signal1::removeCallback", H+"signal9.hpp:Signal9::call"])
p("A throwing callback leaves the filter usable",
  "If a callback throws, exactly the callbacks registered before it (and itself) have been called, the set of registered callbacks is unchanged and later emissions behave as if nothing had happened.",
  "every history, every position of the throwing callback",
  "exception paths at every position",
  [H+"signal1.hpp:Signal1::call"])
p("Mutable callbacks are isolated through networks of filters",
  "When filters that pass events on (PassThrough, Chain, Cache, ...) are connected to a filter in any arrangement and a message reaches two or more user callbacks in total, or the event demands copies, every user callback sees the original content whatever the others write, the publisher's object is unchanged, and no two callbacks are given the same object to write.",
  "every finite tree of filters and callbacks, every mix of parameter forms, every mutation, every message",
  "the forced copy is decided per filter from its own number of callbacks; isolation across filters depends on the whole network",
  [H+"signal1.hpp:Signal1::call", H+"pass_through.hpp:PassThrough::cb", H+"message_event.hpp:MessageEvent"])
p("Filters may be destroyed in any order",
  "Destroying the filters of a network one after another, in any order, never accesses a filter that is already destroyed.",
  "every network and every order of destruction, every filter kind",
  "use after free is silent; the order of destruction depends on the declaration order in user classes",
  [H+"connection.hpp:Connection::disconnect", H+"cache.hpp:Cache::~Cache", H+"chain.hpp:Chain", H+"synchronizer.hpp:Synchronizer::~Synchronizer", H+"time_sequencer.hpp:TimeSequencer::~TimeSequencer"])
p("Networks without cycles process every message completely",
  "In a network of filters without cycles, adding or emitting a message always returns: no deadlock, no unbounded recursion and no access to a destroyed filter.",
  "every network without cycles built by any program, every message, every filter behaviour",
  "locks are held along the whole path; all networks cannot be enumerated",
  [H+"signal1.hpp:Signal1::call", H+"chain.hpp:Chain::add", H+"pass_through.hpp:PassThrough::cb"])
p("A destroyed Subscriber is not called",
  "After a Subscriber is destroyed, no message of its topic reaches it.",
  "every sequence of subscribe/unsubscribe/getSubscriber calls before the destruction",
  "use after free is silent",
  [H+"subscriber.hpp:Subscriber::~Subscriber", H+"subscriber.hpp:Subscriber::getSubscriber"])
p("A Subscriber keeps the shared node it was given",
  "A Subscriber that was given a shared pointer to its node can re-subscribe even after the user released the node.",
  "every overload and constructor taking a shared pointer, every history",
  "dangling pointers are silent; eight overloads and eight constructors",
  [H+"subscriber.hpp:Subscriber::subscribe", H+"subscriber.hpp:Subscriber::Subscriber"])
p("Re-subscribing uses the node of the last subscription",
  "subscribe() subscribes on the node on which the last subscription was made.",
  "every sequence of subscribe/unsubscribe calls of every overload",
  "histories of overloads",
  [H+"subscriber.hpp:Subscriber::subscribe"])
Y = "src/message_filters/__init__.py:"
p("An exception does not block the Python synchronizers",
  "If one call of add on a Python synchronizer raises (because a user callback raises, the message has no usable stamp, or queue_size is negative), later calls still return.",
  "every history, every set of raising callbacks, every malformed message",
  "the lock is released only on the paths without an exception; tests use well-behaved callbacks",
  [Y+"TimeSynchronizer.add", Y+"ApproximateTimeSynchronizer.add"])
p("Python TimeSynchronizer delivers every set that completes",
  "As long as no input has to hold more than queue_size different stamps, the messages of one stamp are delivered exactly when the last of the inputs receives its message (the latest one of each input if a stamp is repeated), in the call that adds it, and each message is otherwise only dropped when replaced by one of the same stamp or when queue_size later stamps are stored.",
  "every history, every number of inputs, every queue_size",
  "completeness over all interleavings and evictions",
  [Y+"TimeSynchronizer.add"])
p("Python ApproximateTimeSynchronizer delivers whenever stored messages fit",
  "After every call no combination of stored messages, one per input, spans less than slop; if no message has to be dropped, any combination of arrived messages that spans less than slop has a member in a delivered set; among the combinations with the new message the delivered one prefers, input by input, the stamps closest to it.",
  "every history, every number of inputs, every slop and queue_size",
  "the search prunes candidates by distance to the new message; completeness is over all combinations",
  [Y+"ApproximateTimeSynchronizer.add"])
p("Concurrent use of the TimeSequencer passes every message on once and in order",
  "For every schedule of threads adding messages and timer callbacks dispatching them, every message the sequencer accepts is passed on exactly once and the messages leave in the order of their stamps.",
  "every number of threads, every schedule, every history of each thread", "the callbacks run after the lock is released; schedules cannot be enumerated",
  [H + "time_sequencer.hpp:TimeSequencer::add", H + "time_sequencer.hpp:TimeSequencer::dispatch"])
p("Concurrent use of the Python Cache is equivalent to some sequential use",
  "For every interleaving of threads adding to a Python Cache its contents are those of some sequential order of the additions: every message is stored with its own time and the newest cache_size messages are present.",
  "every number of threads, every schedule", "schedules cannot be enumerated; the class has no lock",
  [Y + "Cache.add"])
p("The methods of the filters can be used from several threads without a data race",
  "In any network of connected filters, threads that add messages, dispatch, query, set parameters, register callbacks and disconnect never access the same member at the same time with one of them writing.",
  "every number of threads, every schedule, every network of filters without a cycle, every sequence of calls in each thread",
  "a data race is undefined behaviour and rarely visible; schedules cannot be enumerated",
  [H + "cache.hpp:Cache::setCacheSize", H + "cache.hpp:Cache::add", H + "time_sequencer.hpp:TimeSequencer::dispatch", H + "sync_policies/approximate_time.hpp:ApproximateTime::setAgePenalty", H + "sync_policies/latest_time.hpp:LatestTime::setRateConfig", H + "input_aligner.hpp:InputAligner::getQueueStatus", H + "signal1.hpp:Signal1", H + "signal9.hpp:Signal9"])
p("Threads that use a network of filters never block each other forever",
  "In any network of connected filters without a cycle, threads that add messages, dispatch, query, register callbacks and disconnect can always all finish, although a filter holds its own mutexes while it calls the filters behind it.",
  "every number of threads, every schedule, every network of filters without a cycle, every sequence of calls in each thread",
  "a deadlock needs one particular interleaving; schedules and networks cannot be enumerated",
  [H + "signal1.hpp:Signal1::call", H + "signal9.hpp:Signal9::call", H + "sync_policies/exact_time.hpp:ExactTime::add", H + "input_aligner.hpp:InputAligner::dispatchMessages", H + "cache.hpp:Cache::add"])
p("Disconnecting a callback is final, also while other threads emit",
  "When disconnect returns in a thread, the callback is not running in any other thread and is never called again; a callback that is registered before an emission begins and not disconnected before it ends is called by it exactly once; callbacks of one filter never run at the same time.",
  "every number of threads emitting, registering and disconnecting, every schedule, at the granularity of the beginning and end of each callback",
  "needs every interleaving of disconnect with running emissions",
  [H + "signal1.hpp:Signal1::addCallback", H + "signal1.hpp:Signal1::removeCallback", H + "signal1.hpp:Signal1::call", H + "signal9.hpp:Signal9", "src/connection.cpp:Connection::disconnect"])
p("A filter handles messages that arrive while it is being constructed",
  "If messages arrive in other threads while a filter connects its inputs in its constructor, no assertion fails, no null pointer is used and no exception is raised: the messages that arrive on inputs already connected are handled as by the constructed filter.",
  "every interleaving of the constructor with arriving messages, every number of inputs, every history",
  "the window between connecting the first input and the end of the constructor is short; tests construct filters before publishing",
  [H + "synchronizer.hpp:Synchronizer::Synchronizer", H + "synchronizer.hpp:Synchronizer::init", H + "time_synchronizer.hpp:TimeSynchronizer::TimeSynchronizer", H + "sync_policies/exact_time.hpp:ExactTime::add", H + "sync_policies/approximate_time.hpp:ApproximateTime::publishCandidate", Y + "Cache.__init__", Y + "TimeSynchronizer.__init__"])
p("A Python filter passes every message to every registered callback",
  "A message signalled by a Python filter is given, followed by the arguments supplied at registration, to every callback registered so far, exactly once and in the order of registration, and every registration returns a connection of its own; also if callbacks register further callbacks and if several threads use the filter.",
  "every history of registrations and signals, every behaviour of the callbacks, every schedule of threads",
  "the connection is the number of callbacks read before the insertion, and the dictionary is iterated while callbacks and other threads may change it",
  [Y + "SimpleFilter.registerCallback", Y + "SimpleFilter.signalMessage"])
p("Exceptions thrown by callbacks leave the filters sound and usable",
  "If callbacks throw, and the caller catches the exception and goes on using the filter, then: no later call fails an assertion, accesses an empty queue or runs forever; every callback is called with complete sets, or messages, made of received messages, within the limits of the policy (one stamp for ExactTime, epsilon for ApproximateEpsilonTime) and, for the InputAligner, in the order of stamps; and every received message was passed to a callback that returned, is still held, or was dropped for the reasons the filter has without exceptions (TimeSequencer: the calls of a tick are cut short).",
  "every history of calls, every choice of which callback calls throw",
  "exceptions can come at every callback call and leave every intermediate state behind; tests use callbacks that do not throw",
  [H + "time_sequencer.hpp:TimeSequencer::dispatch", H + "input_aligner.hpp:InputAligner::dispatchFirstMessage", H + "sync_policies/exact_time.hpp:ExactTime::checkTuple", H + "sync_policies/approximate_epsilon_time.hpp:ApproximateEpsilonTime::process", H + "sync_policies/approximate_time.hpp:ApproximateTime::publishCandidate"])
p("A throwing callback makes no difference to what is delivered",
  "A filter whose callbacks throw calls them with the same messages in the same order as if they returned: nothing is delivered twice, nothing is lost, the queue sizes hold and the filter goes on.",
  "every history of calls, every choice of which callback calls throw",
  "exceptions can come at every callback call; tests use callbacks that do not throw",
  [H + "cache.hpp:Cache::add", H + "sync_policies/latest_time.hpp:LatestTime::add", H + "time_sequencer.hpp:TimeSequencer::dispatch", H + "input_aligner.hpp:InputAligner::dispatchFirstMessage", H + "sync_policies/exact_time.hpp:ExactTime::checkTuple", H + "sync_policies/approximate_epsilon_time.hpp:ApproximateEpsilonTime::process", H + "sync_policies/approximate_time.hpp:ApproximateTime::publishCandidate"])
p("Comparing events is a consistent order",
  "Events compare equal exactly if they refer to the same message object with the same receipt time and the same copy flag; of a < b, a == b and b < a exactly one holds, < is transitive, events of one message are ordered by receipt time, != is the negation of ==; comparing throws exactly for the same message with receipt times of different clocks; a copy of an event equals its source, and stays equal.",
  "every pair and triple of events, every order of addresses, every program creating and copying events",
  "needs all combinations of three fields and three clocks, and every history of copies",
  [H + "message_event.hpp:MessageEvent::operator<", H + "message_event.hpp:MessageEvent::operator==", H + "message_event.hpp:MessageEvent::operator="])
p("Synchronizers constructed from copies of one policy are independent",
  "A policy object may be copied and synchronizers constructed from it, before and while it is used: each synchronizer goes on from what its source had received, gives its sets to its own callbacks only, is not affected by messages added to others, and calls the drop callbacks registered on its policy.",
  "every program creating, copying, assigning and using policies and synchronizers",
  "tests construct one synchronizer from one fresh policy",
  [H + "synchronizer.hpp:Synchronizer::Synchronizer", H + "sync_policies/exact_time.hpp:ExactTime::operator=", H + "sync_policies/approximate_epsilon_time.hpp:ApproximateEpsilonTime::operator=", H + "sync_policies/approximate_time.hpp:ApproximateTime::operator=", H + "sync_policies/exact_time.hpp:ExactTime::registerDropCallback"])
p("LatestTime estimates are numbers and order the inputs",
  "With smoothing factors in [0, 1] and a margin factor that is not negative, the rate and error estimates of all inputs are finite and not negative whatever the clock shows, so that the comparison by which the inputs are sorted is a strict weak order (otherwise std::stable_sort has undefined behaviour).",
  "every history of messages with arbitrary 64-bit clock readings, every configuration in the stated range, IEEE 754 binary64 arithmetic",
  "infinities and NaNs arise only for extreme periods and configurations",
  [H + "sync_policies/latest_time.hpp:LatestTime::Rate::compute_hz", H + "sync_policies/latest_time.hpp:LatestTime::sort_indices", H + "sync_policies/latest_time.hpp:LatestTime::setRateConfig"])
p("A message whose stamp cannot be read is refused and has no other effect",
  "Reading the stamp of a message throws if its header has negative seconds. A filter given such a message throws from that call and is otherwise as if the call had not been made: it keeps what it held, holds nothing new, and later calls behave as without it.",
  "every history of messages, with valid stamps and without, every input, every parameter", "a message with a bad stamp can come at every point of every history; tests use valid stamps",
  [H + "message_traits.hpp:TimeStamp", H + "cache.hpp:Cache::add", H + "time_sequencer.hpp:TimeSequencer::add", H + "input_aligner.hpp:InputAligner::add", H + "sync_policies/exact_time.hpp:ExactTime::add", H + "sync_policies/approximate_epsilon_time.hpp:ApproximateEpsilonTime::add", H + "sync_policies/approximate_time.hpp:ApproximateTime::add"])
p("A message whose stamp cannot be read is never passed on",
  "No set, and no message, that a filter passes on contains a message whose stamp cannot be read.",
  "every history of messages, with valid stamps and without, every input, every parameter", "a message with a bad stamp can come at every point of every history",
  [H + "cache.hpp:Cache::add", H + "time_sequencer.hpp:TimeSequencer::add", H + "input_aligner.hpp:InputAligner::add", H + "sync_policies/exact_time.hpp:ExactTime::add", H + "sync_policies/approximate_epsilon_time.hpp:ApproximateEpsilonTime::process", H + "sync_policies/approximate_time.hpp:ApproximateTime::process"])
p("A message whose stamp cannot be read does not stop a synchronizer",
  "The sets a synchronizer outputs are those it outputs if the messages whose stamp cannot be read are left out of the history.",
  "every history of messages, with valid stamps and without, every number of inputs, every queue size", "needs every later history",
  [H + "sync_policies/exact_time.hpp:ExactTime::add", H + "sync_policies/approximate_epsilon_time.hpp:ApproximateEpsilonTime::add", H + "sync_policies/approximate_time.hpp:ApproximateTime::add"])
p("Queues stay bounded also if stamps cannot be read",
  "The number of messages a filter holds is bounded by its queue size (cache size) also if messages arrive whose stamp cannot be read.",
  "every history of messages, with valid stamps and without, every queue size", "an upper bound over all histories",
  [H + "cache.hpp:Cache::add", H + "sync_policies/exact_time.hpp:ExactTime::add", H + "sync_policies/approximate_epsilon_time.hpp:ApproximateEpsilonTime::add", H + "sync_policies/approximate_time.hpp:ApproximateTime::add"])
p("Exceptions from stamps do not corrupt the approximate synchronizers",
  "If messages arrive whose stamp cannot be read and the caller catches the exceptions, ApproximateTime and ApproximateEpsilonTime fail no assertion, access no empty queue and always return; every set they output is complete, its messages were received on their inputs, none is used twice and they are used in the order of arrival (ApproximateEpsilonTime: and differ by at most epsilon); until a call throws they behave as with valid stamps.",
  "every history of messages, with valid stamps and without, every number of inputs, every queue size", "the exception can leave every intermediate state of the search behind",
  [H + "sync_policies/approximate_epsilon_time.hpp:ApproximateEpsilonTime::process", H + "sync_policies/approximate_time.hpp:ApproximateTime::process", H + "sync_policies/approximate_time.hpp:ApproximateTime::checkInterMessageBound"])
p("The parameters of ApproximateTime may be changed between messages",
  "The age penalty, the lower bounds and the maximum interval may be set at any time, to any values that are not negative: no later call fails; the values in force are the ones set last; values set before the first message have the same effect as a policy constructed with them; every set is complete and the queues stay bounded and keep the most recent messages; no set spans more than the largest maximum interval that was in force, for any stamps; and from any moment at which no search is in progress (in particular if some input holds nothing), the sets output are optimal, and without overflow the sets that have to come next, for the values then in force.",
  "every history of messages and setter calls, every number of inputs, every queue size, all stamps",
  "a parameter can be changed in every intermediate state of the search; tests set the parameters once, before the first message",
  [H + "sync_policies/approximate_time.hpp:ApproximateTime::setAgePenalty", H + "sync_policies/approximate_time.hpp:ApproximateTime::setInterMessageLowerBound", H + "sync_policies/approximate_time.hpp:ApproximateTime::setMaxIntervalDuration", H + "sync_policies/approximate_time.hpp:ApproximateTime::process"])
p("With moderate parameters no time arithmetic overflows",
  "Adding a duration to a stamp, subtracting stamps and scaling a duration throw if the result is no 64-bit integer. With stamps from headers and durations (epsilon, period, delay, lower bounds) of at most 73 years none of the filters throws for that reason, whatever is received; for ApproximateTime provided the range of the stamps received times (1 + age penalty) fits into 64 bits. The filters then behave as with unbounded integers.",
  "every history of messages with stamps from headers, every number of inputs and queue size, all parameters in the stated ranges, any timeout and maximum interval",
  "overflow depends on the values of stamps and parameters; tests use small ones",
  [H + "sync_policies/approximate_epsilon_time.hpp:ApproximateEpsilonTime::check_timestamp_within_epsilon", H + "sync_policies/approximate_time.hpp:ApproximateTime::getVirtualTime", H + "sync_policies/approximate_time.hpp:ApproximateTime::process", H + "input_aligner.hpp:InputAligner::EventQueue::firstTimeStamp", H + "input_aligner.hpp:InputAligner::dispatchFirstMessage", H + "time_sequencer.hpp:TimeSequencer::dispatch"])
p("Every duration that is not negative is accepted as a parameter",
  "Any epsilon, period, delay, lower bound and age penalty that is not negative may be used, in particular the largest duration for 'no limit': no filter throws because of it.",
  "every history of messages with stamps from headers, every parameter that is not negative",
  "tests use small parameters",
  [H + "sync_policies/approximate_epsilon_time.hpp:ApproximateEpsilonTime::ApproximateEpsilonTime", H + "sync_policies/approximate_time.hpp:ApproximateTime::setInterMessageLowerBound", H + "sync_policies/approximate_time.hpp:ApproximateTime::setAgePenalty", H + "input_aligner.hpp:InputAligner::setInputPeriod", H + "time_sequencer.hpp:TimeSequencer::TimeSequencer"])
p("A connected synchronizer synchronizes what its filters signal",
  "In any program that creates filters, connects a synchronizer to one filter per input and goes on (messages arriving at any filter, filters connected, disconnected and destroyed, in any order) without reconnecting or destroying the synchronizer: ExactTime outputs only sets of one message per filter, signalled by it since, with equal stamps; if the queue is unlimited and every filter signals in the order of the stamps, it outputs all of them, each once, in the order of the stamps. ApproximateEpsilonTime and ApproximateTime never fail, their sets have one message per filter and use what a filter signalled in its order; they are within epsilon, respectively optimal whatever is signalled later. LatestTime does not fail if the filters start as C36 requires; its sets consist of the last message of each filter that has reached it, and with one clock source nothing is thrown. Two networks whose filters signal the same messages lead to the same sets (ExactTime and ApproximateTime).",
  "every network of filters and every program running it, every interleaving of messages, every number of inputs",
  "quantifies over all networks and all interleavings; a test wires one network",
  [H + "synchronizer.hpp:Synchronizer::connectInput", H + "synchronizer.hpp:Synchronizer::cb", H + "simple_filter.hpp:SimpleFilter::signalMessage", H + "sync_policies/exact_time.hpp:ExactTime::add", H + "sync_policies/approximate_epsilon_time.hpp:ApproximateEpsilonTime::add", H + "sync_policies/approximate_time.hpp:ApproximateTime::add"])
p("Connecting a Python synchronizer again replaces its inputs",
  "After connectInput is called again on a Python TimeSynchronizer or ApproximateTimeSynchronizer, the filters it was connected to before go on calling it, but contribute no message to any set and complete none: the messages of the new filters have the same results as with a new synchronizer. A Cache connected again caches the messages of the new filter only. This holds whatever the former filters signal.",
  "every history of messages and calls of connectInput, every number of inputs, every queue size and slop, every header",
  "every state at which connectInput can be called, and every later interleaving of old and new filters",
  [Y + "TimeSynchronizer.connectInput", Y + "TimeSynchronizer.add", Y + "ApproximateTimeSynchronizer.add", Y + "Cache.connectInput"])
p("An exception thrown by a callback reaches the caller",
  "If a callback throws, the call on the filter that led to it (an addition, a dispatch) calls no further callback and throws; a call whose callbacks all return does not throw because of them. No exception is swallowed or delayed.",
  "every history of calls, every choice of which callback calls throw, for Cache, TimeSequencer, InputAligner and all four policies",
  "exceptions can come at every callback call; tests use callbacks that do not throw",
  [H + "time_sequencer.hpp:TimeSequencer::dispatch", H + "input_aligner.hpp:InputAligner::dispatchMessages", H + "sync_policies/exact_time.hpp:ExactTime::checkTuple", H + "sync_policies/approximate_epsilon_time.hpp:ApproximateEpsilonTime::process", H + "sync_policies/approximate_time.hpp:ApproximateTime::process", H + "sync_policies/latest_time.hpp:LatestTime::add", H + "cache.hpp:Cache::add"])
p("ApproximateEpsilonTime does not depend on how the inputs interleave",
  "With a queue that never overflows, what ApproximateEpsilonTime outputs is determined by what each input receives: two programs that give the inputs the same messages, interleaved in any ways and with any sufficient queue sizes, get the same sets in the same order, and receiving more only appends sets. This also holds for synchronizers in two networks whose filters signal the same messages.",
  "every number of inputs, every epsilon that is not negative, all pairs of histories with the same messages per input, in order or not",
  "there are exponentially many interleavings of given input streams; a test runs a few",
  [H + "sync_policies/approximate_epsilon_time.hpp:ApproximateEpsilonTime::add", H + "sync_policies/approximate_epsilon_time.hpp:ApproximateEpsilonTime::process"])
p("ApproximateEpsilonTime outputs exactly the complete groups",
  "If the messages fall into groups (stamps that differ by at most epsilon, never across groups) with at most one message per input each, inputs deliver in the order of stamps and the queue does not overflow, then the sets output at any time are exactly the groups of which a message of every input has been received, each once: missing messages of a group never spoil another group.",
  "every number of inputs, every epsilon, every history of such messages, every interleaving",
  "every pattern of lost messages and every interleaving",
  [H + "sync_policies/approximate_epsilon_time.hpp:ApproximateEpsilonTime::add", H + "sync_policies/approximate_epsilon_time.hpp:ApproximateEpsilonTime::process", H + "sync_policies/approximate_epsilon_time.hpp:ApproximateEpsilonTime::erase_old_events_if_on_sync_with_ts"])
p("ExactTime with a long enough queue loses nothing",
  "With strictly increasing stamps per input, ExactTime with queue size q outputs a set as soon as its last message arrives unless q later stamps have been received before; if that never happens the output is that of an unlimited queue and independent of the interleaving. If all inputs deliver the same stamps and none is ever more than q messages ahead of another, every stamp delivered on all inputs is output, once and in order. With one message more this fails for every q.",
  "every number of inputs, every queue size, every history and interleaving",
  "the queue size and the skew between the inputs are unbounded; a test has one of each",
  [H + "sync_policies/exact_time.hpp:ExactTime::add", H + "sync_policies/exact_time.hpp:ExactTime::checkTuple", H + "sync_policies/exact_time.hpp:ExactTime::clearOldTuples"])
p("Drop callbacks are told which messages are missing",
  "A drop callback of ExactTime is called with the messages of the dropped set and null pointers for the missing ones, whatever form its parameters have (the forms of callbacks of filters: by value, by reference, shared pointer to const or not, event). Every dropped set has a missing message.",
  "every history, every queue size and number of inputs, every number and form of drop callbacks",
  "every combination of forms and missing messages; tests use one form",
  [H + "sync_policies/exact_time.hpp:ExactTime::registerDropCallback", H + "sync_policies/exact_time.hpp:ExactTime::call_drop_signal", H + "parameter_adapter.hpp:ParameterAdapter", H + "message_event.hpp:MessageEvent::copyMessageIfNecessary", H + "signal9.hpp:CallbackHelper9T::call"])
p("TimeSequencer sorts what arrives in time",
  "If every message (with system-clock stamps) is added before a tick sees the time at which it is due, and the queue has room for the messages that wait, then nothing is rejected or evicted, and what is delivered, followed by what is queued, is the added messages sorted by stamp, equal stamps in the order of arrival. So the order of arrival does not matter, and after a tick at which everything is due exactly the sorted messages have been delivered.",
  "every history of additions and ticks, every clock behaviour, every delay and queue size",
  "all arrival orders and interleavings with ticks; tests add a few messages in one order",
  [H + "time_sequencer.hpp:TimeSequencer::add", H + "time_sequencer.hpp:TimeSequencer::dispatch"])
p("InputAligner merges regular inputs deterministically",
  "If every input delivers messages in order, at least its period apart, and at no dispatch an input has been silent for the timeout beyond the time it was expected, then nothing is dropped and the outputs together are the merge of the inputs by stamp, equal stamps in the order of the inputs, whatever the interleaving of additions and dispatches and whatever the timeout. A message is forwarded by the first dispatch at which every other input has delivered, or is expected again, later than it.",
  "every number of inputs, all periods and timeouts that are not negative, every history, every interleaving",
  "exponentially many interleavings of additions and dispatches; tests run a few",
  [H + "input_aligner.hpp:InputAligner::dispatchMessages", H + "input_aligner.hpp:InputAligner::dispatchFirstMessage", H + "input_aligner.hpp:InputAligner::addEvent", H + "input_aligner.hpp:InputAligner::EventQueue::firstTimeStamp"])
p("InputAligner never holds a message for longer than the timeout",
  "After dispatchMessages every message still queued is less than the timeout older than every message that was forwarded or is queued; with timeout zero nothing stays queued.",
  "every number of inputs, every timeout that is not negative, every history of additions, periods and dispatches",
  "a bound over all histories, with inputs that fall silent and come back at any time",
  [H + "input_aligner.hpp:InputAligner::dispatchMessages", H + "input_aligner.hpp:InputAligner::dispatchFirstMessage"])
p("ApproximateTime outputs exactly the groups that belong together",
  "If the messages fall into groups with at most one message per input each, and the maximum interval is no shorter than any group and shorter than the time between any two groups, then (inputs in order, queue not overflowing) every set output is a complete group, in order and each once, and every group of which all inputs have a message has been output once all inputs have received a message of a later group; lost messages never lead to a mixed set. Without a maximum interval the same holds if no input misses a group, for which some spread must separate the groups.",
  "every number of inputs, every maximum interval, age penalty and lower bounds, every history and interleaving",
  "every pattern of lost messages and interleaving, and all stamps consistent with the groups",
  [H + "sync_policies/approximate_time.hpp:ApproximateTime::process", H + "sync_policies/approximate_time.hpp:ApproximateTime::setMaxIntervalDuration", H + "sync_policies/approximate_time.hpp:ApproximateTime::publishCandidate"])
p("In-order arrival needs only short queues",
  "If messages arrive in the order of their stamps whatever the input, as they leave an InputAligner with timely inputs, ExactTime with queue size 1 outputs every matching set (inputs strictly increasing), ApproximateEpsilonTime with queue size 1 outputs exactly the complete groups (groups of at most one message per input within epsilon, never closer across groups), even though messages of incomplete groups overflow the queues, and ApproximateTime with queue size 2 outputs exactly the groups of the InputAligner's inputs if no input misses one. More generally ApproximateTime never overflows queues of more than k messages if no input misses a group or is more than k messages ahead of another.",
  "every number of inputs, every history and interleaving, every queue size from the stated one on, every epsilon, maximum interval, age penalty, period and timeout",
  "composition of two filters over all interleavings; tests never connect an InputAligner to a synchronizer",
  [H + "sync_policies/exact_time.hpp:ExactTime::clearOldTuples", H + "sync_policies/approximate_epsilon_time.hpp:ApproximateEpsilonTime::add", H + "sync_policies/approximate_time.hpp:ApproximateTime::add", H + "input_aligner.hpp:InputAligner::dispatchMessages"])
p("Filters may be destroyed while other threads deliver to them",
  "While other threads make the filters it is connected to signal messages, a filter can be destroyed: its destructor waits for the callbacks that are running, no callback uses the filter afterwards, and the destructor and the calls of the other threads can always be completed.",
  "every number of inputs and of threads, every wiring of the inputs to upstream filters, every interleaving, for Cache, TimeSequencer, InputAligner, the synchronizers, PassThrough",
  "a race between a destructor and a signal; tests destroy filters in the thread that signals",
  [H + "cache.hpp:Cache::~Cache", H + "time_sequencer.hpp:TimeSequencer::~TimeSequencer", H + "synchronizer.hpp:Synchronizer::disconnectAll", H + "input_aligner.hpp:InputAligner::~InputAligner", H + "signal1.hpp:Signal1::removeCallback", H + "signal1.hpp:Signal1::call", H + "pass_through.hpp:PassThrough"])
p("A Chain can be destroyed together with its filters",
  "A Chain that holds the only pointers to filters added to it can be destroyed, whatever the filters: no filter or connection is used after its destruction. The same holds if some of the filters survive.",
  "every program that builds a chain of any length from any filters, every choice of the filters it owns, every order in which a vector may destroy its elements",
  "use after free that shows only under a memory checker; tests own PassThrough filters only",
  [H + "chain.hpp:Chain::addFilter", H + "chain.hpp:Chain::FilterInfo", H + "pass_through.hpp:PassThrough", H + "cache.hpp:Cache::~Cache", H + "time_sequencer.hpp:TimeSequencer::~TimeSequencer", H + "connection.cpp:Connection::disconnect"])
p("Callbacks may call the methods of the filter that calls them",
  "A callback may call the methods of the filter that calls it: the call returns and takes effect as if made right after the call that signalled. A message it adds is passed on like any other.",
  "every filter state, every sequence of calls, every callback (an interactive program that depends on all results and on everything done so far)",
  "a deadlock in one thread that needs a certain callback; tests use callbacks that only count or store messages",
  [H + "cache.hpp:Cache::add", H + "time_sequencer.hpp:TimeSequencer::dispatch", H + "input_aligner.hpp:InputAligner::dispatchMessages", H + "sync_policies/exact_time.hpp:ExactTime::add", H + "sync_policies/approximate_time.hpp:ApproximateTime::add", H + "sync_policies/approximate_epsilon_time.hpp:ApproximateEpsilonTime::add", H + "sync_policies/latest_time.hpp:LatestTime::add", H + "signal1.hpp:Signal1::call"])
p("A message that a filter keeps does not change",
  "The content of a message stored in a Cache, a TimeSequencer or a synchronizer stays what it was when it was added, whatever callbacks anywhere do with the messages they are given, then or later.",
  "every network of filters, every kind of callback parameter, every sequence of messages, signals (in any order, repeated) and later writes by callbacks",
  "aliasing between a stored message and one handed to a callback that keeps the pointer; tests use const callbacks or look at the message at once",
  [H + "cache.hpp:Cache::add", H + "message_event.hpp:MessageEvent::copyMessageIfNecessary", H + "signal1.hpp:CallbackHelper1T::call", H + "signal9.hpp:CallbackHelper9T::call", H + "parameter_adapter.hpp:ParameterAdapter", H + "subscriber.hpp:Subscriber::cb"])
p("Cache queries are exact for every size of the cache",
  "The answers of getSurroundingInterval, getElemBeforeTime and getElemAfterTime are those of C10 and C11 however many messages the cache holds, up to the largest size setCacheSize accepts (an unsigned int).",
  "every history of additions, resizings and queries of a cache, all sizes up to UINT_MAX, 32 bit int",
  "needs more than 2^31 messages in memory",
  [H + "cache.hpp:Cache::getSurroundingInterval", H + "cache.hpp:Cache::getElemBeforeTime", H + "cache.hpp:Cache::getElemAfterTime", H + "cache.hpp:Cache::setCacheSize"])
p("getMessage returns a whole message or throws",
  "getMessage of an event returns a message with the content of the message the event was made from, or throws, also if the message factory or copying the message throws; callbacks are never given an incomplete copy. Events of null messages can be passed to all callbacks that take pointers or events.",
  "every sequence of constructions, copies, assignments and reads of events; every behaviour of the factory (new object, exception) and of copying (success, exception with any partial result) in every call; every network of filters and all parameter kinds",
  "a throwing copy assignment (out of memory in the middle of a message) at any point of any program",
  [H + "message_event.hpp:MessageEvent::copyMessageIfNecessary", H + "message_event.hpp:MessageEvent::operator=", H + "message_event.hpp:MessageEvent::getMessageFactory", H + "signal1.hpp:CallbackHelper1T::call", H + "parameter_adapter.hpp:ParameterAdapter"])
p("An event can be used by several threads",
  "getMessage is a const method: if several threads call it on one event, all calls return a message with the content of the event's message, and the same object each time, without a data race.",
  "every number of threads and calls, every interleaving, const and non-const events, with and without demand for copies",
  "depends on the interleaving of a few instructions",
  [H + "message_event.hpp:MessageEvent::getMessage", H + "message_event.hpp:MessageEvent::copyMessageIfNecessary"])
p("A TimeSequencer is at most one update period late",
  "If the timer ticks at least once per update period and every message arrives less than the delay after it was stamped, then at any time exactly the messages that arrived have been passed on or wait, in the order of their stamps; none is passed on before stamp + delay, none waits beyond stamp + delay + update period; a queue for the messages of delay + update period suffices, one for the messages of the delay does not.",
  "every history of timed additions and ticks, every delay, update period and queue size",
  "a bound on lateness and on the queue needed, over all arrival patterns in real time",
  [H + "time_sequencer.hpp:TimeSequencer::dispatch", H + "time_sequencer.hpp:TimeSequencer::add", H + "time_sequencer.hpp:TimeSequencer::init"])
p("Output callbacks may change the parameters of the ApproximateTime policy that calls them",
  "A callback of an ApproximateTime policy may call its setters. No such run fails, no message is lost otherwise than without callbacks, each set is complete and spans at most the maximum interval in force since the previous set was output; for streams in time order every set is optimal, and without full queues exactly the set found by a search, with the parameters left by the callback of the previous set, so the order of arrival does not matter. A callback that adds a message blocks for ever.",
  "every sequence of messages, every callback (a function of all sets output so far), all parameters",
  "re-entrant calls at arbitrary points of the search, for all callbacks",
  [H + "sync_policies/approximate_time.hpp:ApproximateTime::publishCandidate", H + "sync_policies/approximate_time.hpp:ApproximateTime::process", H + "sync_policies/approximate_time.hpp:ApproximateTime::setAgePenalty", H + "sync_policies/approximate_time.hpp:ApproximateTime::setInterMessageLowerBound", H + "sync_policies/approximate_time.hpp:ApproximateTime::setMaxIntervalDuration"])
p("Output callbacks may set the periods of the InputAligner that calls them",
  "An output callback of an InputAligner may call setInputPeriod and getQueueStatus. No such run fails, blocks or loops; everything forwarded is still in time order, nothing is lost or dropped otherwise than late, dispatchMessages stops only when it must wait, and nothing overtakes what an input predicts. A period set in the callback of a message does not change the prediction already made from that message, only later ones; the status read there still counts the message as waiting. A callback that adds a message or dispatches blocks for ever.",
  "every number of inputs, every sequence of calls, every callback (a function of all messages forwarded so far and the status of all inputs)",
  "re-entrant calls at every iteration of the dispatch loop, for all callbacks",
  [H + "input_aligner.hpp:InputAligner::dispatchMessages", H + "input_aligner.hpp:InputAligner::dispatchFirstMessage", H + "input_aligner.hpp:InputAligner::setInputPeriod", H + "input_aligner.hpp:InputAligner::getQueueStatus"])
p("Output callbacks may reconfigure the LatestTime policy that calls them, but only a change of clock has an effect",
  "An output callback of a LatestTime policy may call setRateConfig, setRateConfigPerMessage and setClock. Such a run fails exactly if the same additions fail without a callback, and every set passed on consists of the latest messages of all inputs. A configuration set in a callback, or from outside after every input has received a message, never has any effect. A clock set in a callback gives the time of all later messages: while all clocks are of one source nothing is thrown; a callback that sets a clock of another source is called at most once. A callback that adds a message blocks for ever.",
  "every number of inputs, every sequence of calls and clock readings, every arithmetic, every callback (a function of all sets passed on so far)",
  "re-entrant calls, for all callbacks and histories; absence of an effect for ever",
  [H + "sync_policies/latest_time.hpp:LatestTime::add", H + "sync_policies/latest_time.hpp:LatestTime::setRateConfig", H + "sync_policies/latest_time.hpp:LatestTime::setRateConfigPerMessage", H + "sync_policies/latest_time.hpp:LatestTime::setClock", H + "sync_policies/latest_time.hpp:LatestTime::publish"])
p("A filter that is being destroyed is not called by its timer",
  "If the timer callback of a TimeSequencer or an InputAligner is not running when its destruction begins, the timer does not call the filter during or after the destruction, whatever the executors do. Until then the timer in use can be called at any time. Setting up the dispatch timer of an InputAligner again replaces the timer: the old one is called only by executors that hold it already.",
  "any number of executors, every interleaving of their steps with those of the destructor, any number of timers set up",
  "needs the executor to be between finding the timer ready and calling it when the filter is destroyed",
  [H + "time_sequencer.hpp:TimeSequencer::~TimeSequencer", H + "time_sequencer.hpp:TimeSequencer::init", H + "input_aligner.hpp:InputAligner::~InputAligner", H + "input_aligner.hpp:InputAligner::setupDispatchTimer"])
p("A Python Subscriber takes the arguments of a subscription and passes every message on",
  "The constructor of the Python Subscriber accepts every way to give the arguments of an rclpy subscription, by position or by keyword, and subscribes with exactly these, 10 being the default QoS profile. Every message received is then given to all registered callbacks, to each once and in order.",
  "all positional and keyword arguments, all values, every sequence of registrations and messages",
  "all ways to give the arguments",
  ["src/message_filters/__init__.py:Subscriber.__init__", "src/message_filters/__init__.py:Subscriber.callback", "src/message_filters/__init__.py:Subscriber.getTopic"])
with open("/verif/properties.jsonl", "w") as f:
    for x in P:
        f.write(json.dumps(x) + "\n")
print(len(P))
