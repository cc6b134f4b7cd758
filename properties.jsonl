{"id": "C01", "title": "Filter fan-out", "statement": "A message emitted by a filter is delivered exactly once to every callback that is registered and not disconnected at that moment, in registration order, and to nothing else.", "quantifier": "every sequence of registerCallback, Connection::disconnect and emitted messages on one filter", "why_tests_cant": "a test fixes a few registrations; the claim is about every history of registrations and disconnections", "anchors": ["include/message_filters/signal1.hpp:Signal1", "include/message_filters/simple_filter.hpp:SimpleFilter::registerCallback", "src/connection.cpp:Connection::disconnect"]}
{"id": "C02", "title": "Disconnect is local and idempotent", "statement": "Disconnecting a connection removes exactly the callback it was returned for; repeating it, or disconnecting a default-constructed Connection, changes nothing; other callbacks keep their relative order.", "quantifier": "every history and every connection, including connections disconnected several times", "why_tests_cant": "must hold for every list of registered callbacks and every position in it", "anchors": ["include/message_filters/signal1.hpp:Signal1::removeCallback", "src/connection.cpp:Connection::disconnect"]}
{"id": "C03", "title": "Mutable callbacks of single-output filters are isolated", "statement": "When a single-output filter has two or more callbacks, or the event demands copies, a callback taking a non-const message works on a private copy: whatever it writes, every other callback and the publisher see the original content. With exactly one callback and a no-copy event it receives the original object, without copying.", "quantifier": "every number of callbacks, every mix of the parameter forms, every mutation a callback performs, every message content", "why_tests_cant": "mutation by one callback of what another one sees depends on the whole callback list and on what callbacks do", "anchors": ["include/message_filters/signal1.hpp:CallbackHelper1T::call", "include/message_filters/parameter_adapter.hpp:ParameterAdapter", "include/message_filters/message_event.hpp:MessageEvent::copyMessageIfNecessary"]}
{"id": "C04", "title": "Mutable callbacks of synchronizers are isolated", "statement": "When a synchronizer has two or more callbacks, a callback taking non-const messages cannot change what the other callbacks see.", "quantifier": "every number of callbacks, every mix of parameter forms, every tuple of events", "why_tests_cant": "same as for single-output filters, but through the N-ary signal", "anchors": ["include/message_filters/signal9.hpp:CallbackHelper9T::call", "include/message_filters/signal9.hpp:Signal9::call"]}
{"id": "C05", "title": "A copying event copies once", "statement": "Asking a non-const MessageEvent for its message repeatedly yields the same object each time, a private copy made at most once when the event demands copies and the original otherwise; copying an event never shares the private copy; metadata (receipt time) is preserved.", "quantifier": "every sequence of getMessage calls and event copies", "why_tests_cant": "depends on the order of calls on the event object", "anchors": ["include/message_filters/message_event.hpp:MessageEvent"]}
{"id": "C06", "title": "Cache contents are sorted by time stamp, ties in arrival order", "statement": "After any sequence of additions and size changes the cached messages are ordered by time stamp and messages with equal stamps are in arrival order.", "quantifier": "every sequence of add / setCacheSize with arbitrary, also out-of-order, stamps", "why_tests_cant": "out-of-order insertion into every possible content", "anchors": ["include/message_filters/cache.hpp:Cache::add"]}
{"id": "C07", "title": "Cache is bounded", "statement": "After every addition the cache holds at most the configured number of messages (the last non-zero size set). Changing the size by itself neither adds nor removes messages.", "quantifier": "every sequence of operations, including shrinking the size", "why_tests_cant": "size changes interleave arbitrarily with additions", "anchors": ["include/message_filters/cache.hpp:Cache::add", "include/message_filters/cache.hpp:Cache::setCacheSize"]}
{"id": "C08", "title": "Cache keeps the most recent N", "statement": "If messages arrive with non-decreasing stamps the cache holds exactly the last N messages added. In general exactly the oldest-stamped messages present before an insertion are evicted, and no more than needed.", "quantifier": "every sequence of additions", "why_tests_cant": "history property over unbounded streams", "anchors": ["include/message_filters/cache.hpp:Cache::add"]}
{"id": "C09", "title": "getInterval is exact", "statement": "getInterval(start,end) returns exactly the cached messages with start <= stamp <= end, in order, for every start and end, also when start > end.", "quantifier": "every reachable cache and every pair of times", "why_tests_cant": "two index scans over arbitrary contents with duplicates", "anchors": ["include/message_filters/cache.hpp:Cache::getInterval"]}
{"id": "C10", "title": "getSurroundingInterval is the tightest surrounding slice", "statement": "getSurroundingInterval returns the contiguous slice that starts at the last message not after start (or at the oldest message if there is none) and ends at the first message from there that is not before end (or at the newest message); empty for an empty cache.", "quantifier": "every reachable cache and every pair of times", "why_tests_cant": "boundary behaviour with duplicates, empty and one-element caches", "anchors": ["include/message_filters/cache.hpp:Cache::getSurroundingInterval"]}
{"id": "C11", "title": "getElemBeforeTime / getElemAfterTime are exact", "statement": "getElemBeforeTime(t) returns the newest cached message stamped strictly before t (the last arrived among equals) and null iff there is none; getElemAfterTime(t) the oldest one stamped strictly after t (the first arrived among equals) and null iff there is none.", "quantifier": "every reachable cache and every time", "why_tests_cant": "strictness and ties over arbitrary contents", "anchors": ["include/message_filters/cache.hpp:Cache::getElemBeforeTime", "include/message_filters/cache.hpp:Cache::getElemAfterTime"]}
{"id": "C12", "title": "getLatestTime / getOldestTime bound the contents", "statement": "On a non-empty cache getOldestTime and getLatestTime return the smallest and the largest cached stamp; on an empty cache they return the zero time.", "quantifier": "every reachable cache", "why_tests_cant": "needs the sortedness invariant for all histories", "anchors": ["include/message_filters/cache.hpp:Cache::getLatestTime", "include/message_filters/cache.hpp:Cache::getOldestTime"]}
{"id": "C13", "title": "Cache forwards everything", "statement": "Every message added to the cache is forwarded downstream immediately, exactly once and in order, whether or not it stays in the cache.", "quantifier": "every history", "why_tests_cant": "universal over histories", "anchors": ["include/message_filters/cache.hpp:Cache::add"]}
{"id": "C14", "title": "A cache constructed with size 0 is still usable", "statement": "Constructing Cache with cache_size 0 (which the setter rejects) leaves the cache with a well-defined capacity.", "quantifier": "every history after such a construction", "why_tests_cant": "the failure is an indeterminate read, invisible to a test", "anchors": ["include/message_filters/cache.hpp:Cache::Cache", "include/message_filters/cache.hpp:Cache::setCacheSize"]}
{"id": "C15", "title": "Mixed clock sources are rejected without corrupting the cache", "statement": "All cached messages always carry the same clock source; a query never changes the cache; an interval query starting at, or an element query for, a time of another clock source on a non-empty cache throws; an end of another clock source throws iff a cached message would have to be compared with it; adding a message of another clock source never leaves a cache with mixed sources.", "quantifier": "every history with arbitrary clock sources on stamps and queries", "why_tests_cant": "exceptional paths in the middle of an update, from every state", "anchors": ["include/message_filters/cache.hpp:Cache", "include/message_filters/message_traits.hpp:TimeStamp"]}
{"id": "C16", "title": "ExactTime sets match exactly", "statement": "Every set passed to the callback contains, for each input i, a message that was added on input i, and all stamps in the set are equal.", "quantifier": "every number of inputs and every interleaving of additions", "why_tests_cant": "holds for all interleavings, duplicates, late messages", "anchors": ["include/message_filters/sync_policies/exact_time.hpp:ExactTime::add", "include/message_filters/sync_policies/exact_time.hpp:ExactTime::checkTuple"]}
{"id": "C17", "title": "ExactTime completeness", "statement": "With an unbounded queue and strictly increasing stamps on every input, a stamp is output iff a message with that stamp has been added on every input, exactly once, at the moment the last of them arrives, with exactly those messages.", "quantifier": "every number of inputs, every interleaving of such streams", "why_tests_cant": "universal over interleavings", "anchors": ["include/message_filters/sync_policies/exact_time.hpp:ExactTime::checkTuple", "include/message_filters/sync_policies/exact_time.hpp:ExactTime::clearOldTuples"]}
{"id": "C18", "title": "ExactTime drop accounting", "statement": "Every message added is accounted for: it is in exactly one of: an output set, a set reported to the drop callback, the pending sets, or it was replaced by a later message with the same stamp on the same input.", "quantifier": "every history, every queue size", "why_tests_cant": "conservation law over all histories", "anchors": ["include/message_filters/sync_policies/exact_time.hpp:ExactTime::drop_range", "include/message_filters/sync_policies/exact_time.hpp:ExactTime::call_drop_signal"]}
{"id": "C19", "title": "ExactTime queue bound, oldest dropped first", "statement": "With queue size q > 0 at most q incomplete sets are pending after every addition; whatever is dropped because of the bound is older than everything kept; outputting a set drops every pending set that is not newer and keeps every newer one.", "quantifier": "every history, every q", "why_tests_cant": "bound must hold in every reachable state", "anchors": ["include/message_filters/sync_policies/exact_time.hpp:ExactTime::checkTuple", "include/message_filters/sync_policies/exact_time.hpp:ExactTime::clearOldTuples"]}
{"id": "C20", "title": "ExactTime output is in time order", "statement": "If every input delivers strictly increasing stamps, output stamps are strictly increasing, for every queue size. (Without the premise it is false: late messages can form an older set.)", "quantifier": "every number of inputs, every interleaving, every queue size", "why_tests_cant": "universal over interleavings", "anchors": ["include/message_filters/sync_policies/exact_time.hpp:ExactTime"]}
{"id": "C21", "title": "ExactTime is independent of cross-input arrival order", "statement": "For strictly increasing inputs and an unbounded queue, the sequence of output sets depends only on the per-input streams and not on how they were interleaved.", "quantifier": "every two interleavings of the same streams", "why_tests_cant": "the number of interleavings is unbounded", "anchors": ["include/message_filters/sync_policies/exact_time.hpp:ExactTime"]}
{"id": "C22", "title": "ApproximateEpsilonTime sets fit in epsilon", "statement": "In every output set the difference between the newest and the oldest stamp is at most epsilon.", "quantifier": "every number of inputs, every history, every epsilon >= 0", "why_tests_cant": "universal over histories", "anchors": ["include/message_filters/sync_policies/approximate_epsilon_time.hpp:ApproximateEpsilonTime::check_all_timestamp_within_epsilon"]}
{"id": "C23", "title": "ApproximateEpsilonTime uses each message at most once, in order", "statement": "For each input, the messages appearing in the output sets form a subsequence of the messages added on that input (used at most once, sets never cross).", "quantifier": "every history", "why_tests_cant": "relates whole input history to whole output history", "anchors": ["include/message_filters/sync_policies/approximate_epsilon_time.hpp:ApproximateEpsilonTime::process"]}
{"id": "C24", "title": "ApproximateEpsilonTime is bounded", "statement": "After every addition each input has at most queue_size pending messages and some input has none. When an input overflows, its first received message is the one dropped.", "quantifier": "every history, every queue size", "why_tests_cant": "reachable-state invariant", "anchors": ["include/message_filters/sync_policies/approximate_epsilon_time.hpp:ApproximateEpsilonTime::add"]}
{"id": "C25", "title": "ApproximateEpsilonTime::add terminates", "statement": "For epsilon >= 0 every addition terminates. (For a negative epsilon and two or more inputs it can loop forever.)", "quantifier": "every history; every epsilon", "why_tests_cant": "termination cannot be observed by testing", "anchors": ["include/message_filters/sync_policies/approximate_epsilon_time.hpp:ApproximateEpsilonTime::process"]}
{"id": "C26", "title": "ApproximateEpsilonTime does not discard a usable message", "statement": "With time-ordered inputs and no queue overflow, a message is discarded unmatched only if no set of pending or future messages containing it fits in epsilon.", "quantifier": "every number of inputs, every history and every future", "why_tests_cant": "quantifies over all future messages", "anchors": ["include/message_filters/sync_policies/approximate_epsilon_time.hpp:ApproximateEpsilonTime::erase_old_events_if_on_sync_with_ts"]}
{"id": "C27", "title": "ApproximateTime never fails an internal check", "statement": "No addition makes ApproximateTime fail an assertion, access an empty queue, or loop forever, whatever the stamps, the order of arrival, the bounds and the (non-negative) age penalty; every addition completes.", "quantifier": "every number of inputs, every history, every queue size >= 1, arbitrary (also out-of-order) stamps", "why_tests_cant": "nested data-dependent loops; termination and assertion freedom over all inputs", "anchors": ["include/message_filters/sync_policies/approximate_time.hpp:ApproximateTime::process", "include/message_filters/sync_policies/approximate_time.hpp:ApproximateTime::add"]}
{"id": "C28", "title": "ApproximateTime uses each message at most once and sets never cross", "statement": "For each input, the messages appearing in the output sets form a subsequence of the messages added on that input; every output set has one message per input.", "quantifier": "every history, also with queue overflow and out-of-order stamps", "why_tests_cant": "relates whole input history to whole output history", "anchors": ["include/message_filters/sync_policies/approximate_time.hpp:ApproximateTime::publishCandidate", "include/message_filters/sync_policies/approximate_time.hpp:ApproximateTime::recoverAndDelete"]}
{"id": "C29", "title": "ApproximateTime is bounded", "statement": "After every addition each input has at most queue_size messages pending.", "quantifier": "every history, every queue size >= 1", "why_tests_cant": "reachable-state invariant", "anchors": ["include/message_filters/sync_policies/approximate_time.hpp:ApproximateTime::add"]}
{"id": "C30", "title": "ApproximateTime respects the maximum interval", "statement": "Every output set spans at most the configured maximum interval duration.", "quantifier": "every history with a fixed maximum interval, arbitrary stamps", "why_tests_cant": "candidates are replaced by later candidates without re-checking the maximum", "anchors": ["include/message_filters/sync_policies/approximate_time.hpp:ApproximateTime::process"]}
{"id": "C31", "title": "ApproximateTime outputs optimal sets", "statement": "With time-ordered inputs that respect the configured inter-message lower bounds, every output set is optimal: there is an input (the pivot), whose message in this set is the latest of some set of messages arriving after the previous output set and not after this set's, such that no set made of messages arriving after the previous output set and containing the pivot's message - including messages that have not arrived yet - is better, where a set is better iff it starts later by more than (1+age_penalty) times how much later it ends. Up to the rounding of the scaled durations: better by more than a quarter of a nanosecond.", "quantifier": "every number of inputs, every history, every future of the history", "why_tests_cant": "quantifies over all competing sets and all futures", "anchors": ["include/message_filters/sync_policies/approximate_time.hpp:ApproximateTime::process", "include/message_filters/sync_policies/approximate_time.hpp:ApproximateTime::getVirtualTime"]}
{"id": "C32", "title": "ApproximateTime sets are contiguous", "statement": "Under the same premises and without queue overflow, between two consecutive output sets there is an input (the pivot) on which no message is skipped that could be part of a set within the maximum interval; with an unlimited interval it is the input whose first message after the previous set is the latest.", "quantifier": "every number of inputs, every history", "why_tests_cant": "universal over histories", "anchors": ["include/message_filters/sync_policies/approximate_time.hpp:ApproximateTime::process"]}
{"id": "C33", "title": "ApproximateTime is independent of cross-input arrival order", "statement": "Under the same premises (including no queue overflow) the output sets depend only on the per-input streams: for any two interleavings of (prefixes of) the same streams one output sequence is a prefix of the other.", "quantifier": "every two interleavings", "why_tests_cant": "the number of interleavings is unbounded; early publication must never change the result", "anchors": ["include/message_filters/sync_policies/approximate_time.hpp:ApproximateTime"]}
{"id": "C34", "title": "ApproximateTime publishes perfect matches immediately", "statement": "If, with no candidate pending and no messages dropped, the next message of every input has the same stamp, the set is output during the addition that completes it.", "quantifier": "every reachable state", "why_tests_cant": "reachable-state property", "anchors": ["include/message_filters/sync_policies/approximate_time.hpp:ApproximateTime::process"]}
{"id": "C35", "title": "LatestTime outputs the latest message of every input", "statement": "Every output contains, for each input, the most recently added message of that input; nothing is output before every input has received a message; at most one output per addition, and only on an input's second or later message.", "quantifier": "every history, every clock behaviour, every floating-point rounding", "why_tests_cant": "depends on floating-point rates and clock readings", "anchors": ["include/message_filters/sync_policies/latest_time.hpp:LatestTime::add", "include/message_filters/sync_policies/latest_time.hpp:LatestTime::publish"]}
{"id": "C36", "title": "LatestTime is memory safe for any arrival order", "statement": "No sequence of additions makes LatestTime access rate data that does not exist.", "quantifier": "every order in which inputs receive their messages", "why_tests_cant": "tests always start the inputs in index order", "anchors": ["include/message_filters/sync_policies/latest_time.hpp:LatestTime::add", "include/message_filters/sync_policies/latest_time.hpp:LatestTime::initialize_rate"]}
{"id": "C37", "title": "LatestTime rate estimation terminates and ignores stalled clocks", "statement": "compute_hz always terminates, after at most two passes, and leaves the estimate untouched and reports invalid when the clock has not advanced or its source differs.", "quantifier": "every rate state, every clock reading", "why_tests_cant": "loop with continue over floating-point comparisons (also NaN)", "anchors": ["include/message_filters/sync_policies/latest_time.hpp:LatestTime::Rate::compute_hz"]}
{"id": "C38", "title": "LatestTime configuration survives constructing the synchronizer", "statement": "Rate configuration set on a policy object is in force in a Synchronizer constructed from that policy.", "quantifier": "every configuration", "why_tests_cant": "copy semantics of every field", "anchors": ["include/message_filters/sync_policies/latest_time.hpp:LatestTime::operator="]}
{"id": "C39", "title": "TimeSequencer output is in temporal order", "statement": "The callbacks are invoked in non-decreasing stamp order, over the whole life of the sequencer.", "quantifier": "every history of additions and timer ticks, every clock behaviour", "why_tests_cant": "interleavings of additions and ticks with late messages", "anchors": ["include/message_filters/time_sequencer.hpp:TimeSequencer::dispatch", "include/message_filters/time_sequencer.hpp:TimeSequencer::add"]}
{"id": "C40", "title": "TimeSequencer never delivers early and always delivers what is due", "statement": "A message is delivered only at a tick at which stamp + delay <= now; after a tick no queued message is overdue.", "quantifier": "every history and every monotone clock", "why_tests_cant": "timer and clock interleavings", "anchors": ["include/message_filters/time_sequencer.hpp:TimeSequencer::dispatch"]}
{"id": "C41", "title": "TimeSequencer accounting", "statement": "Every added message is either rejected because it is older than an already delivered one, evicted by the queue bound, still queued or delivered exactly once.", "quantifier": "every history", "why_tests_cant": "conservation over histories", "anchors": ["include/message_filters/time_sequencer.hpp:TimeSequencer"]}
{"id": "C42", "title": "TimeSequencer keeps the newest queue_size messages", "statement": "With queue size q > 0 at most q messages are queued and when the bound is exceeded exactly one message, an oldest one, is evicted.", "quantifier": "every history, also with equal stamps", "why_tests_cant": "ties in the multiset", "anchors": ["include/message_filters/time_sequencer.hpp:TimeSequencer::add"]}
{"id": "C43", "title": "TimeSequencer works with ROS header stamps", "statement": "Adding a message with a std_msgs header (ROS clock source) to a sequencer never throws.", "quantifier": "every message", "why_tests_cant": "the repository's only such test is marked SKIP_TEST", "anchors": ["include/message_filters/time_sequencer.hpp:TimeSequencer::add", "include/message_filters/message_traits.hpp:TimeStamp"]}
{"id": "C44", "title": "InputAligner output is globally ordered", "statement": "Over all outputs together, messages are forwarded in non-decreasing stamp order.", "quantifier": "every number of inputs, every history of additions, period settings and dispatches", "why_tests_cant": "universal over interleavings", "anchors": ["include/message_filters/input_aligner.hpp:InputAligner::dispatchFirstMessage", "include/message_filters/input_aligner.hpp:InputAligner::addEvent"]}
{"id": "C45", "title": "InputAligner accounting", "statement": "For each input, every added message is forwarded exactly once on the output of the same index, still queued, or was counted as dropped on arrival, and the counters of getQueueStatus equal these numbers.", "quantifier": "every history", "why_tests_cant": "conservation over histories", "anchors": ["include/message_filters/input_aligner.hpp:InputAligner::EventQueue", "include/message_filters/input_aligner.hpp:InputAligner::getQueueStatus"]}
{"id": "C46", "title": "InputAligner drops nothing that respects its period", "statement": "While an input stays active, a message stamped at least one period after that input's previous message is never dropped.", "quantifier": "every history", "why_tests_cant": "interaction of all inputs with look-ahead", "anchors": ["include/message_filters/input_aligner.hpp:InputAligner::EventQueue::firstTimeStamp"]}
{"id": "C47", "title": "InputAligner dispatch is maximal and terminates", "statement": "dispatchMessages terminates (timeout >= 0) and stops only when nothing is queued or the oldest queued message must wait for an active empty input that has not timed out.", "quantifier": "every reachable state, every non-negative timeout", "why_tests_cant": "termination; liveness of the loop", "anchors": ["include/message_filters/input_aligner.hpp:InputAligner::dispatchMessages"]}
{"id": "C48", "title": "InputAligner never overtakes an active input", "statement": "A message is forwarded only if every other input has a queued message that is not older, is inactive, or predicts its next message no earlier.", "quantifier": "every reachable state", "why_tests_cant": "reachable-state property", "anchors": ["include/message_filters/input_aligner.hpp:InputAligner::dispatchFirstMessage"]}
{"id": "C49", "title": "Chain is the composition of its filters", "statement": "A message added to a chain traverses all filters in the order they were added and the output of the last filter, and only of the last one, reaches the chain's callbacks exactly once.", "quantifier": "every number of filters and every filter behaviour, filters added between messages", "why_tests_cant": "dynamic number of filters", "anchors": ["include/message_filters/chain.hpp:Chain::addFilter", "include/message_filters/chain.hpp:Chain::add", "include/message_filters/pass_through.hpp:PassThrough"]}
{"id": "C50", "title": "Chain retrieval by index", "statement": "addFilter returns consecutive indices from 0 and getFilter(i) returns the i-th added filter, null for every i not below the number of filters.", "quantifier": "every number of filters, every index", "why_tests_cant": "universal over sizes", "anchors": ["include/message_filters/chain.hpp:Chain::getFilter", "include/message_filters/chain.hpp:ChainBase::getFilter"]}
{"id": "C51", "title": "Reconnecting replaces the input", "statement": "After connectInput(f) a filter receives messages from f only, each once, whatever it was connected to before.", "quantifier": "every sequence of connections, every filter kind", "why_tests_cant": "history of reconnections", "anchors": ["include/message_filters/pass_through.hpp:PassThrough::connectInput", "include/message_filters/cache.hpp:Cache::connectInput", "include/message_filters/time_sequencer.hpp:TimeSequencer::connectInput", "include/message_filters/synchronizer.hpp:Synchronizer::connectInput", "include/message_filters/chain.hpp:Chain::connectInput"]}
{"id": "C52", "title": "Destroying a filter detaches it", "statement": "After a filter is destroyed no upstream message is delivered to it: emitting upstream is safe.", "quantifier": "every wiring and every order of operations, every filter kind", "why_tests_cant": "use after free is not observable by ordinary tests", "anchors": ["include/message_filters/cache.hpp:Cache::~Cache", "include/message_filters/pass_through.hpp:PassThrough", "include/message_filters/chain.hpp:Chain", "include/message_filters/synchronizer.hpp:Synchronizer::~Synchronizer"]}
{"id": "C53", "title": "Synchronizer input i feeds slot i", "statement": "After connectInput(f0..fk) a message emitted by f_i is added to slot i of the policy and to no other slot.", "quantifier": "every number of inputs and every reconnection", "why_tests_cant": "universal over wirings", "anchors": ["include/message_filters/synchronizer.hpp:Synchronizer::connect", "include/message_filters/synchronizer.hpp:Synchronizer::disconnectAll"]}
{"id": "C54", "title": "Subscriber holds at most one subscription", "statement": "At any time a Subscriber has at most one live subscription, for the last non-empty topic requested; unsubscribe leaves none; re-subscribing restores topic, QoS and options of the last subscription.", "quantifier": "every sequence of subscribe/unsubscribe calls of every overload", "why_tests_cant": "histories of overloads", "anchors": ["include/message_filters/subscriber.hpp:Subscriber::subscribe", "include/message_filters/subscriber.hpp:Subscriber::unsubscribe"]}
{"id": "C55", "title": "Python TimeSynchronizer sets match exactly", "statement": "Every set delivered has equal stamps, one message per input; each stored message is delivered at most once; each input stores at most queue_size messages.", "quantifier": "every history, every number of inputs", "why_tests_cant": "universal over interleavings", "anchors": ["src/message_filters/__init__.py:TimeSynchronizer.add"]}
{"id": "C56", "title": "Python ApproximateTimeSynchronizer sets fit in slop", "statement": "Every set delivered has one message per input, spans less than slop, contains the message just added, and its messages are removed (delivered at most once); each input stores at most queue_size messages.", "quantifier": "every history, every number of inputs, every slop", "why_tests_cant": "product search over arbitrary queues", "anchors": ["src/message_filters/__init__.py:ApproximateTimeSynchronizer.add"]}
{"id": "C57", "title": "Python Cache keeps the last N and answers queries exactly", "statement": "The Python cache holds exactly the last cache_size accepted messages in arrival order; getInterval returns exactly those within the bounds; getElemAfterTime / getElemBeforeTime return the oldest / newest one not before / not after the stamp.", "quantifier": "every history, every query", "why_tests_cant": "universal over histories, also out of order", "anchors": ["src/message_filters/__init__.py:Cache"]}
{"id": "C58", "title": "Concurrent use of a locked filter is equivalent to some sequential use", "statement": "For every schedule of threads calling add / dispatch on a filter, the final state and the output are those of some sequential order of the calls that respects each thread's program order.", "quantifier": "every number of threads, every schedule", "why_tests_cant": "schedules cannot be enumerated by tests", "anchors": ["include/message_filters/sync_policies/approximate_time.hpp:data_mutex_", "include/message_filters/sync_policies/exact_time.hpp:mutex_", "include/message_filters/input_aligner.hpp:mutex_"]}
{"id": "C59", "title": "Concurrent cache additions are forwarded in cache order", "statement": "For every schedule of threads adding to a cache every message is forwarded exactly once, and the order of forwarding equals the order of insertion.", "quantifier": "every schedule", "why_tests_cant": "forwarding happens outside the lock", "anchors": ["include/message_filters/cache.hpp:Cache::add"]}
{"id": "C60", "title": "ApproximateTime makes progress", "statement": "With time-ordered inputs respecting the bounds and no overflow, a set does not wait forever: once every input has received a message later than the end of the earliest possible set (within the maximum interval) that follows the sets output so far, the next set has been output.", "quantifier": "every number of inputs, every history", "why_tests_cant": "liveness over all histories", "anchors": ["include/message_filters/sync_policies/approximate_time.hpp:process"]}
{"id": "C61", "title": "Copying an ApproximateTime policy is safe", "statement": "A policy copied at any time (copy constructor, assignment) behaves like the original from then on.", "quantifier": "every reachable state of the policy, every continuation", "why_tests_cant": "depends on the internal state at the time of the copy", "anchors": ["include/message_filters/sync_policies/approximate_time.hpp:ApproximateTime(const ApproximateTime &)", "include/message_filters/sync_policies/approximate_time.hpp:operator="]}
{"id": "C62", "title": "ApproximateTime warns about exactly the bound violations", "statement": "A warning about an input is logged only if two consecutive messages of that input are out of order or closer than the configured lower bound, and is logged whenever that happens.", "quantifier": "every history, every bound", "why_tests_cant": "universal over histories", "anchors": ["include/message_filters/sync_policies/approximate_time.hpp:checkInterMessageBound"]}
{"id": "C63", "title": "ApproximateEpsilonTime outputs as soon as the heads fit", "statement": "When an addition leaves every input with a pending message and the first received pending messages of all inputs span at most epsilon (bound included), exactly that set is output by the same call.", "quantifier": "every history, every addition, every number of inputs, every epsilon >= 0", "why_tests_cant": "liveness over every reachable state, including the boundary stamp difference", "anchors": ["include/message_filters/sync_policies/approximate_epsilon_time.hpp:ApproximateEpsilonTime::process", "include/message_filters/sync_policies/approximate_epsilon_time.hpp:ApproximateEpsilonTime::check_all_timestamp_within_epsilon"]}
{"id": "C64", "title": "LatestTime per-input rate configuration reaches its input", "statement": "With setRateConfigPerMessage, the i-th configuration governs the rate estimate of input i.", "quantifier": "every configuration, every order in which inputs receive their first messages", "why_tests_cant": "tests start inputs in one order and do not configure them individually", "anchors": ["include/message_filters/sync_policies/latest_time.hpp:LatestTime::initialize_rate", "include/message_filters/sync_policies/latest_time.hpp:LatestTime::setRateConfigPerMessage"]}
{"id": "C65", "title": "LatestTime survives a change of clock source", "statement": "After setClock with a clock of another source, additions do not throw and output resumes.", "quantifier": "every history, every point of change", "why_tests_cant": "depends on which inputs started under which clock", "anchors": ["include/message_filters/sync_policies/latest_time.hpp:LatestTime::setClock", "include/message_filters/sync_policies/latest_time.hpp:LatestTime::find_pivot"]}
{"id": "C66", "title": "LatestTime outputs on the fastest input that is not late", "statement": "An addition triggers an output if and only if the clock has advanced since the input's previous reading, every input has received a message, and the input has the largest positive rate among the inputs that are not late (the lowest index among equal rates).", "quantifier": "every history under one clock source, every floating-point behaviour without NaN rates", "why_tests_cant": "selection over all combinations of rates and lateness", "anchors": ["include/message_filters/sync_policies/latest_time.hpp:LatestTime::find_pivot", "include/message_filters/sync_policies/latest_time.hpp:LatestTime::add"]}
{"id": "C67", "title": "LatestTime with periodic inputs outputs at the rate of the fastest", "statement": "With strictly periodic inputs and no overdue message, once every input has a message, outputs happen exactly on the messages of the fastest input among those that have received two messages.", "quantifier": "every number of inputs, every set of periods and phases, every interleaving on schedule", "why_tests_cant": "tests use one set of rates", "anchors": ["include/message_filters/sync_policies/latest_time.hpp:LatestTime::add", "include/message_filters/sync_policies/latest_time.hpp:LatestTime::find_pivot", "include/message_filters/sync_policies/latest_time.hpp:LatestTime::Rate::compute_hz"]}
{"id": "C68", "title": "LatestTime rate estimate lies within the observed rates", "statement": "With smoothing factors in [0, 1], the rate estimate of an input always lies between the smallest and the largest instantaneous rate observed, the error estimate never exceeds their distance, and with a constant period the estimate is exact.", "quantifier": "every sequence of increasing clock readings, every configuration", "why_tests_cant": "universal over readings and smoothing factors", "anchors": ["include/message_filters/sync_policies/latest_time.hpp:LatestTime::Rate::compute_hz"]}
{"id": "C69", "title": "Callbacks may use the filter that calls them", "statement": "A callback may disconnect itself, register another callback or emit another message on the filter that is calling it, and the call returns.", "quantifier": "every set of callbacks, every operation performed by a callback", "why_tests_cant": "a single deadlocking combination is enough, tests use passive callbacks", "anchors": ["include/message_filters/signal1.hpp:Signal1::call", "include/message_filters/signal1.hpp:Signal1::removeCallback", "include/message_filters/signal9.hpp:Signal9::call"]}
{"id": "C70", "title": "A throwing callback leaves the filter usable", "statement": "If a callback throws, exactly the callbacks registered before it (and itself) have been called, the set of registered callbacks is unchanged and later emissions behave as if nothing had happened.", "quantifier": "every history, every position of the throwing callback", "why_tests_cant": "exception paths at every position", "anchors": ["include/message_filters/signal1.hpp:Signal1::call"]}
{"id": "C71", "title": "Mutable callbacks are isolated through networks of filters", "statement": "When filters that pass events on (PassThrough, Chain, Cache, ...) are connected to a filter in any arrangement and a message reaches two or more user callbacks in total, or the event demands copies, every user callback sees the original content whatever the others write, the publisher's object is unchanged, and no two callbacks are given the same object to write.", "quantifier": "every finite tree of filters and callbacks, every mix of parameter forms, every mutation, every message", "why_tests_cant": "the forced copy is decided per filter from its own number of callbacks; isolation across filters depends on the whole network", "anchors": ["include/message_filters/signal1.hpp:Signal1::call", "include/message_filters/pass_through.hpp:PassThrough::cb", "include/message_filters/message_event.hpp:MessageEvent"]}
{"id": "C72", "title": "Filters may be destroyed in any order", "statement": "Destroying the filters of a network one after another, in any order, never accesses a filter that is already destroyed.", "quantifier": "every network and every order of destruction, every filter kind", "why_tests_cant": "use after free is silent; the order of destruction depends on the declaration order in user classes", "anchors": ["include/message_filters/connection.hpp:Connection::disconnect", "include/message_filters/cache.hpp:Cache::~Cache", "include/message_filters/chain.hpp:Chain", "include/message_filters/synchronizer.hpp:Synchronizer::~Synchronizer", "include/message_filters/time_sequencer.hpp:TimeSequencer::~TimeSequencer"]}
{"id": "C73", "title": "Networks without cycles process every message completely", "statement": "In a network of filters without cycles, adding or emitting a message always returns: no deadlock, no unbounded recursion and no access to a destroyed filter.", "quantifier": "every network without cycles built by any program, every message, every filter behaviour", "why_tests_cant": "locks are held along the whole path; all networks cannot be enumerated", "anchors": ["include/message_filters/signal1.hpp:Signal1::call", "include/message_filters/chain.hpp:Chain::add", "include/message_filters/pass_through.hpp:PassThrough::cb"]}
{"id": "C74", "title": "A destroyed Subscriber is not called", "statement": "After a Subscriber is destroyed, no message of its topic reaches it.", "quantifier": "every sequence of subscribe/unsubscribe/getSubscriber calls before the destruction", "why_tests_cant": "use after free is silent", "anchors": ["include/message_filters/subscriber.hpp:Subscriber::~Subscriber", "include/message_filters/subscriber.hpp:Subscriber::getSubscriber"]}
{"id": "C75", "title": "A Subscriber keeps the shared node it was given", "statement": "A Subscriber that was given a shared pointer to its node can re-subscribe even after the user released the node.", "quantifier": "every overload and constructor taking a shared pointer, every history", "why_tests_cant": "dangling pointers are silent; eight overloads and eight constructors", "anchors": ["include/message_filters/subscriber.hpp:Subscriber::subscribe", "include/message_filters/subscriber.hpp:Subscriber::Subscriber"]}
{"id": "C76", "title": "Re-subscribing uses the node of the last subscription", "statement": "subscribe() subscribes on the node on which the last subscription was made.", "quantifier": "every sequence of subscribe/unsubscribe calls of every overload", "why_tests_cant": "histories of overloads", "anchors": ["include/message_filters/subscriber.hpp:Subscriber::subscribe"]}
{"id": "C77", "title": "An exception does not block the Python synchronizers", "statement": "If one call of add on a Python synchronizer raises (because a user callback raises, the message has no usable stamp, or queue_size is negative), later calls still return.", "quantifier": "every history, every set of raising callbacks, every malformed message", "why_tests_cant": "the lock is released only on the paths without an exception; tests use well-behaved callbacks", "anchors": ["src/message_filters/__init__.py:TimeSynchronizer.add", "src/message_filters/__init__.py:ApproximateTimeSynchronizer.add"]}
{"id": "C78", "title": "Python TimeSynchronizer delivers every set that completes", "statement": "As long as no input has to hold more than queue_size different stamps, the messages of one stamp are delivered exactly when the last of the inputs receives its message (the latest one of each input if a stamp is repeated), in the call that adds it, and each message is otherwise only dropped when replaced by one of the same stamp or when queue_size later stamps are stored.", "quantifier": "every history, every number of inputs, every queue_size", "why_tests_cant": "completeness over all interleavings and evictions", "anchors": ["src/message_filters/__init__.py:TimeSynchronizer.add"]}
{"id": "C79", "title": "Python ApproximateTimeSynchronizer delivers whenever stored messages fit", "statement": "After every call no combination of stored messages, one per input, spans less than slop; if no message has to be dropped, any combination of arrived messages that spans less than slop has a member in a delivered set; among the combinations with the new message the delivered one prefers, input by input, the stamps closest to it.", "quantifier": "every history, every number of inputs, every slop and queue_size", "why_tests_cant": "the search prunes candidates by distance to the new message; completeness is over all combinations", "anchors": ["src/message_filters/__init__.py:ApproximateTimeSynchronizer.add"]}
{"id": "C80", "title": "Concurrent use of the TimeSequencer passes every message on once and in order", "statement": "For every schedule of threads adding messages and timer callbacks dispatching them, every message the sequencer accepts is passed on exactly once and the messages leave in the order of their stamps.", "quantifier": "every number of threads, every schedule, every history of each thread", "why_tests_cant": "the callbacks run after the lock is released; schedules cannot be enumerated", "anchors": ["include/message_filters/time_sequencer.hpp:TimeSequencer::add", "include/message_filters/time_sequencer.hpp:TimeSequencer::dispatch"]}
{"id": "C81", "title": "Concurrent use of the Python Cache is equivalent to some sequential use", "statement": "For every interleaving of threads adding to a Python Cache its contents are those of some sequential order of the additions: every message is stored with its own time and the newest cache_size messages are present.", "quantifier": "every number of threads, every schedule", "why_tests_cant": "schedules cannot be enumerated; the class has no lock", "anchors": ["src/message_filters/__init__.py:Cache.add"]}
{"id": "C82", "title": "The methods of the filters can be used from several threads without a data race", "statement": "In any network of connected filters, threads that add messages, dispatch, query, set parameters, register callbacks and disconnect never access the same member at the same time with one of them writing.", "quantifier": "every number of threads, every schedule, every network of filters without a cycle, every sequence of calls in each thread", "why_tests_cant": "a data race is undefined behaviour and rarely visible; schedules cannot be enumerated", "anchors": ["include/message_filters/cache.hpp:Cache::setCacheSize", "include/message_filters/cache.hpp:Cache::add", "include/message_filters/time_sequencer.hpp:TimeSequencer::dispatch", "include/message_filters/sync_policies/approximate_time.hpp:ApproximateTime::setAgePenalty", "include/message_filters/sync_policies/latest_time.hpp:LatestTime::setRateConfig", "include/message_filters/input_aligner.hpp:InputAligner::getQueueStatus", "include/message_filters/signal1.hpp:Signal1", "include/message_filters/signal9.hpp:Signal9"]}
{"id": "C83", "title": "Threads that use a network of filters never block each other forever", "statement": "In any network of connected filters without a cycle, threads that add messages, dispatch, query, register callbacks and disconnect can always all finish, although a filter holds its own mutexes while it calls the filters behind it.", "quantifier": "every number of threads, every schedule, every network of filters without a cycle, every sequence of calls in each thread", "why_tests_cant": "a deadlock needs one particular interleaving; schedules and networks cannot be enumerated", "anchors": ["include/message_filters/signal1.hpp:Signal1::call", "include/message_filters/signal9.hpp:Signal9::call", "include/message_filters/sync_policies/exact_time.hpp:ExactTime::add", "include/message_filters/input_aligner.hpp:InputAligner::dispatchMessages", "include/message_filters/cache.hpp:Cache::add"]}
{"id": "C84", "title": "Disconnecting a callback is final, also while other threads emit", "statement": "When disconnect returns in a thread, the callback is not running in any other thread and is never called again; a callback that is registered before an emission begins and not disconnected before it ends is called by it exactly once; callbacks of one filter never run at the same time.", "quantifier": "every number of threads emitting, registering and disconnecting, every schedule, at the granularity of the beginning and end of each callback", "why_tests_cant": "needs every interleaving of disconnect with running emissions", "anchors": ["include/message_filters/signal1.hpp:Signal1::addCallback", "include/message_filters/signal1.hpp:Signal1::removeCallback", "include/message_filters/signal1.hpp:Signal1::call", "include/message_filters/signal9.hpp:Signal9", "src/connection.cpp:Connection::disconnect"]}
{"id": "C85", "title": "A filter handles messages that arrive while it is being constructed", "statement": "If messages arrive in other threads while a filter connects its inputs in its constructor, no assertion fails, no null pointer is used and no exception is raised: the messages that arrive on inputs already connected are handled as by the constructed filter.", "quantifier": "every interleaving of the constructor with arriving messages, every number of inputs, every history", "why_tests_cant": "the window between connecting the first input and the end of the constructor is short; tests construct filters before publishing", "anchors": ["include/message_filters/synchronizer.hpp:Synchronizer::Synchronizer", "include/message_filters/synchronizer.hpp:Synchronizer::init", "include/message_filters/time_synchronizer.hpp:TimeSynchronizer::TimeSynchronizer", "include/message_filters/sync_policies/exact_time.hpp:ExactTime::add", "include/message_filters/sync_policies/approximate_time.hpp:ApproximateTime::publishCandidate", "src/message_filters/__init__.py:Cache.__init__", "src/message_filters/__init__.py:TimeSynchronizer.__init__"]}
{"id": "C86", "title": "A Python filter passes every message to every registered callback", "statement": "A message signalled by a Python filter is given, followed by the arguments supplied at registration, to every callback registered so far, exactly once and in the order of registration, and every registration returns a connection of its own; also if callbacks register further callbacks and if several threads use the filter.", "quantifier": "every history of registrations and signals, every behaviour of the callbacks, every schedule of threads", "why_tests_cant": "the connection is the number of callbacks read before the insertion, and the dictionary is iterated while callbacks and other threads may change it", "anchors": ["src/message_filters/__init__.py:SimpleFilter.registerCallback", "src/message_filters/__init__.py:SimpleFilter.signalMessage"]}
{"id": "C87", "title": "Exceptions thrown by callbacks leave the filters sound and usable", "statement": "If callbacks throw, and the caller catches the exception and goes on using the filter, then: no later call fails an assertion, accesses an empty queue or runs forever; every callback is called with complete sets, or messages, made of received messages, within the limits of the policy (one stamp for ExactTime, epsilon for ApproximateEpsilonTime) and, for the InputAligner, in the order of stamps; and every received message was passed to a callback that returned, is still held, or was dropped for the reasons the filter has without exceptions (TimeSequencer: the calls of a tick are cut short).", "quantifier": "every history of calls, every choice of which callback calls throw", "why_tests_cant": "exceptions can come at every callback call and leave every intermediate state behind; tests use callbacks that do not throw", "anchors": ["include/message_filters/time_sequencer.hpp:TimeSequencer::dispatch", "include/message_filters/input_aligner.hpp:InputAligner::dispatchFirstMessage", "include/message_filters/sync_policies/exact_time.hpp:ExactTime::checkTuple", "include/message_filters/sync_policies/approximate_epsilon_time.hpp:ApproximateEpsilonTime::process", "include/message_filters/sync_policies/approximate_time.hpp:ApproximateTime::publishCandidate"]}
{"id": "C88", "title": "A throwing callback makes no difference to what is delivered", "statement": "A filter whose callbacks throw calls them with the same messages in the same order as if they returned: nothing is delivered twice, nothing is lost, the queue sizes hold and the filter goes on.", "quantifier": "every history of calls, every choice of which callback calls throw", "why_tests_cant": "exceptions can come at every callback call; tests use callbacks that do not throw", "anchors": ["include/message_filters/cache.hpp:Cache::add", "include/message_filters/sync_policies/latest_time.hpp:LatestTime::add", "include/message_filters/time_sequencer.hpp:TimeSequencer::dispatch", "include/message_filters/input_aligner.hpp:InputAligner::dispatchFirstMessage", "include/message_filters/sync_policies/exact_time.hpp:ExactTime::checkTuple", "include/message_filters/sync_policies/approximate_epsilon_time.hpp:ApproximateEpsilonTime::process", "include/message_filters/sync_policies/approximate_time.hpp:ApproximateTime::publishCandidate"]}
{"id": "C89", "title": "Comparing events is a consistent order", "statement": "Events compare equal exactly if they refer to the same message object with the same receipt time and the same copy flag; of a < b, a == b and b < a exactly one holds, < is transitive, events of one message are ordered by receipt time, != is the negation of ==; comparing throws exactly for the same message with receipt times of different clocks; a copy of an event equals its source, and stays equal.", "quantifier": "every pair and triple of events, every order of addresses, every program creating and copying events", "why_tests_cant": "needs all combinations of three fields and three clocks, and every history of copies", "anchors": ["include/message_filters/message_event.hpp:MessageEvent::operator<", "include/message_filters/message_event.hpp:MessageEvent::operator==", "include/message_filters/message_event.hpp:MessageEvent::operator="]}
{"id": "C90", "title": "Synchronizers constructed from copies of one policy are independent", "statement": "A policy object may be copied and synchronizers constructed from it, before and while it is used: each synchronizer goes on from what its source had received, gives its sets to its own callbacks only, is not affected by messages added to others, and calls the drop callbacks registered on its policy.", "quantifier": "every program creating, copying, assigning and using policies and synchronizers", "why_tests_cant": "tests construct one synchronizer from one fresh policy", "anchors": ["include/message_filters/synchronizer.hpp:Synchronizer::Synchronizer", "include/message_filters/sync_policies/exact_time.hpp:ExactTime::operator=", "include/message_filters/sync_policies/approximate_epsilon_time.hpp:ApproximateEpsilonTime::operator=", "include/message_filters/sync_policies/approximate_time.hpp:ApproximateTime::operator=", "include/message_filters/sync_policies/exact_time.hpp:ExactTime::registerDropCallback"]}
{"id": "C91", "title": "LatestTime estimates are numbers and order the inputs", "statement": "With smoothing factors in [0, 1] and a margin factor that is not negative, the rate and error estimates of all inputs are finite and not negative whatever the clock shows, so that the comparison by which the inputs are sorted is a strict weak order (otherwise std::stable_sort has undefined behaviour).", "quantifier": "every history of messages with arbitrary 64-bit clock readings, every configuration in the stated range, IEEE 754 binary64 arithmetic", "why_tests_cant": "infinities and NaNs arise only for extreme periods and configurations", "anchors": ["include/message_filters/sync_policies/latest_time.hpp:LatestTime::Rate::compute_hz", "include/message_filters/sync_policies/latest_time.hpp:LatestTime::sort_indices", "include/message_filters/sync_policies/latest_time.hpp:LatestTime::setRateConfig"]}
{"id": "C92", "title": "A message whose stamp cannot be read is refused and has no other effect", "statement": "Reading the stamp of a message throws if its header has negative seconds. A filter given such a message throws from that call and is otherwise as if the call had not been made: it keeps what it held, holds nothing new, and later calls behave as without it.", "quantifier": "every history of messages, with valid stamps and without, every input, every parameter", "why_tests_cant": "a message with a bad stamp can come at every point of every history; tests use valid stamps", "anchors": ["include/message_filters/message_traits.hpp:TimeStamp", "include/message_filters/cache.hpp:Cache::add", "include/message_filters/time_sequencer.hpp:TimeSequencer::add", "include/message_filters/input_aligner.hpp:InputAligner::add", "include/message_filters/sync_policies/exact_time.hpp:ExactTime::add", "include/message_filters/sync_policies/approximate_epsilon_time.hpp:ApproximateEpsilonTime::add", "include/message_filters/sync_policies/approximate_time.hpp:ApproximateTime::add"]}
{"id": "C93", "title": "A message whose stamp cannot be read is never passed on", "statement": "No set, and no message, that a filter passes on contains a message whose stamp cannot be read.", "quantifier": "every history of messages, with valid stamps and without, every input, every parameter", "why_tests_cant": "a message with a bad stamp can come at every point of every history", "anchors": ["include/message_filters/cache.hpp:Cache::add", "include/message_filters/time_sequencer.hpp:TimeSequencer::add", "include/message_filters/input_aligner.hpp:InputAligner::add", "include/message_filters/sync_policies/exact_time.hpp:ExactTime::add", "include/message_filters/sync_policies/approximate_epsilon_time.hpp:ApproximateEpsilonTime::process", "include/message_filters/sync_policies/approximate_time.hpp:ApproximateTime::process"]}
{"id": "C94", "title": "A message whose stamp cannot be read does not stop a synchronizer", "statement": "The sets a synchronizer outputs are those it outputs if the messages whose stamp cannot be read are left out of the history.", "quantifier": "every history of messages, with valid stamps and without, every number of inputs, every queue size", "why_tests_cant": "needs every later history", "anchors": ["include/message_filters/sync_policies/exact_time.hpp:ExactTime::add", "include/message_filters/sync_policies/approximate_epsilon_time.hpp:ApproximateEpsilonTime::add", "include/message_filters/sync_policies/approximate_time.hpp:ApproximateTime::add"]}
{"id": "C95", "title": "Queues stay bounded also if stamps cannot be read", "statement": "The number of messages a filter holds is bounded by its queue size (cache size) also if messages arrive whose stamp cannot be read.", "quantifier": "every history of messages, with valid stamps and without, every queue size", "why_tests_cant": "an upper bound over all histories", "anchors": ["include/message_filters/cache.hpp:Cache::add", "include/message_filters/sync_policies/exact_time.hpp:ExactTime::add", "include/message_filters/sync_policies/approximate_epsilon_time.hpp:ApproximateEpsilonTime::add", "include/message_filters/sync_policies/approximate_time.hpp:ApproximateTime::add"]}
{"id": "C96", "title": "Exceptions from stamps do not corrupt the approximate synchronizers", "statement": "If messages arrive whose stamp cannot be read and the caller catches the exceptions, ApproximateTime and ApproximateEpsilonTime fail no assertion, access no empty queue and always return; every set they output is complete, its messages were received on their inputs, none is used twice and they are used in the order of arrival (ApproximateEpsilonTime: and differ by at most epsilon); until a call throws they behave as with valid stamps.", "quantifier": "every history of messages, with valid stamps and without, every number of inputs, every queue size", "why_tests_cant": "the exception can leave every intermediate state of the search behind", "anchors": ["include/message_filters/sync_policies/approximate_epsilon_time.hpp:ApproximateEpsilonTime::process", "include/message_filters/sync_policies/approximate_time.hpp:ApproximateTime::process", "include/message_filters/sync_policies/approximate_time.hpp:ApproximateTime::checkInterMessageBound"]}
{"id": "C97", "title": "The parameters of ApproximateTime may be changed between messages", "statement": "The age penalty, the lower bounds and the maximum interval may be set at any time, to any values that are not negative: no later call fails; the values in force are the ones set last; values set before the first message have the same effect as a policy constructed with them; every set is complete and the queues stay bounded and keep the most recent messages; no set spans more than the largest maximum interval that was in force, for any stamps; and from any moment at which no search is in progress (in particular if some input holds nothing), the sets output are optimal, and without overflow the sets that have to come next, for the values then in force.", "quantifier": "every history of messages and setter calls, every number of inputs, every queue size, all stamps", "why_tests_cant": "a parameter can be changed in every intermediate state of the search; tests set the parameters once, before the first message", "anchors": ["include/message_filters/sync_policies/approximate_time.hpp:ApproximateTime::setAgePenalty", "include/message_filters/sync_policies/approximate_time.hpp:ApproximateTime::setInterMessageLowerBound", "include/message_filters/sync_policies/approximate_time.hpp:ApproximateTime::setMaxIntervalDuration", "include/message_filters/sync_policies/approximate_time.hpp:ApproximateTime::process"]}
{"id": "C98", "title": "With moderate parameters no time arithmetic overflows", "statement": "Adding a duration to a stamp, subtracting stamps and scaling a duration throw if the result is no 64-bit integer. With stamps from headers and durations (epsilon, period, delay, lower bounds) of at most 73 years none of the filters throws for that reason, whatever is received; for ApproximateTime provided the range of the stamps received times (1 + age penalty) fits into 64 bits. The filters then behave as with unbounded integers.", "quantifier": "every history of messages with stamps from headers, every number of inputs and queue size, all parameters in the stated ranges, any timeout and maximum interval", "why_tests_cant": "overflow depends on the values of stamps and parameters; tests use small ones", "anchors": ["include/message_filters/sync_policies/approximate_epsilon_time.hpp:ApproximateEpsilonTime::check_timestamp_within_epsilon", "include/message_filters/sync_policies/approximate_time.hpp:ApproximateTime::getVirtualTime", "include/message_filters/sync_policies/approximate_time.hpp:ApproximateTime::process", "include/message_filters/input_aligner.hpp:InputAligner::EventQueue::firstTimeStamp", "include/message_filters/input_aligner.hpp:InputAligner::dispatchFirstMessage", "include/message_filters/time_sequencer.hpp:TimeSequencer::dispatch"]}
{"id": "C99", "title": "Every duration that is not negative is accepted as a parameter", "statement": "Any epsilon, period, delay, lower bound and age penalty that is not negative may be used, in particular the largest duration for 'no limit': no filter throws because of it.", "quantifier": "every history of messages with stamps from headers, every parameter that is not negative", "why_tests_cant": "tests use small parameters", "anchors": ["include/message_filters/sync_policies/approximate_epsilon_time.hpp:ApproximateEpsilonTime::ApproximateEpsilonTime", "include/message_filters/sync_policies/approximate_time.hpp:ApproximateTime::setInterMessageLowerBound", "include/message_filters/sync_policies/approximate_time.hpp:ApproximateTime::setAgePenalty", "include/message_filters/input_aligner.hpp:InputAligner::setInputPeriod", "include/message_filters/time_sequencer.hpp:TimeSequencer::TimeSequencer"]}
{"id": "C100", "title": "A connected synchronizer synchronizes what its filters signal", "statement": "In any program that creates filters, connects a synchronizer to one filter per input and goes on (messages arriving at any filter, filters connected, disconnected and destroyed, in any order) without reconnecting or destroying the synchronizer: ExactTime outputs only sets of one message per filter, signalled by it since, with equal stamps; if the queue is unlimited and every filter signals in the order of the stamps, it outputs all of them, each once, in the order of the stamps. ApproximateEpsilonTime and ApproximateTime never fail, their sets have one message per filter and use what a filter signalled in its order; they are within epsilon, respectively optimal whatever is signalled later. LatestTime does not fail if the filters start as C36 requires; its sets consist of the last message of each filter that has reached it, and with one clock source nothing is thrown. Two networks whose filters signal the same messages lead to the same sets (ExactTime and ApproximateTime).", "quantifier": "every network of filters and every program running it, every interleaving of messages, every number of inputs", "why_tests_cant": "quantifies over all networks and all interleavings; a test wires one network", "anchors": ["include/message_filters/synchronizer.hpp:Synchronizer::connectInput", "include/message_filters/synchronizer.hpp:Synchronizer::cb", "include/message_filters/simple_filter.hpp:SimpleFilter::signalMessage", "include/message_filters/sync_policies/exact_time.hpp:ExactTime::add", "include/message_filters/sync_policies/approximate_epsilon_time.hpp:ApproximateEpsilonTime::add", "include/message_filters/sync_policies/approximate_time.hpp:ApproximateTime::add"]}
{"id": "C101", "title": "Connecting a Python synchronizer again replaces its inputs", "statement": "After connectInput is called again on a Python TimeSynchronizer or ApproximateTimeSynchronizer, the filters it was connected to before go on calling it, but contribute no message to any set and complete none: the messages of the new filters have the same results as with a new synchronizer. A Cache connected again caches the messages of the new filter only. This holds whatever the former filters signal.", "quantifier": "every history of messages and calls of connectInput, every number of inputs, every queue size and slop, every header", "why_tests_cant": "every state at which connectInput can be called, and every later interleaving of old and new filters", "anchors": ["src/message_filters/__init__.py:TimeSynchronizer.connectInput", "src/message_filters/__init__.py:TimeSynchronizer.add", "src/message_filters/__init__.py:ApproximateTimeSynchronizer.add", "src/message_filters/__init__.py:Cache.connectInput"]}
{"id": "C102", "title": "An exception thrown by a callback reaches the caller", "statement": "If a callback throws, the call on the filter that led to it (an addition, a dispatch) calls no further callback and throws; a call whose callbacks all return does not throw because of them. No exception is swallowed or delayed.", "quantifier": "every history of calls, every choice of which callback calls throw, for Cache, TimeSequencer, InputAligner and all four policies", "why_tests_cant": "exceptions can come at every callback call; tests use callbacks that do not throw", "anchors": ["include/message_filters/time_sequencer.hpp:TimeSequencer::dispatch", "include/message_filters/input_aligner.hpp:InputAligner::dispatchMessages", "include/message_filters/sync_policies/exact_time.hpp:ExactTime::checkTuple", "include/message_filters/sync_policies/approximate_epsilon_time.hpp:ApproximateEpsilonTime::process", "include/message_filters/sync_policies/approximate_time.hpp:ApproximateTime::process", "include/message_filters/sync_policies/latest_time.hpp:LatestTime::add", "include/message_filters/cache.hpp:Cache::add"]}
{"id": "C103", "title": "ApproximateEpsilonTime does not depend on how the inputs interleave", "statement": "With a queue that never overflows, what ApproximateEpsilonTime outputs is determined by what each input receives: two programs that give the inputs the same messages, interleaved in any ways and with any sufficient queue sizes, get the same sets in the same order, and receiving more only appends sets. This also holds for synchronizers in two networks whose filters signal the same messages.", "quantifier": "every number of inputs, every epsilon that is not negative, all pairs of histories with the same messages per input, in order or not", "why_tests_cant": "there are exponentially many interleavings of given input streams; a test runs a few", "anchors": ["include/message_filters/sync_policies/approximate_epsilon_time.hpp:ApproximateEpsilonTime::add", "include/message_filters/sync_policies/approximate_epsilon_time.hpp:ApproximateEpsilonTime::process"]}
{"id": "C104", "title": "ApproximateEpsilonTime outputs exactly the complete groups", "statement": "If the messages fall into groups (stamps that differ by at most epsilon, never across groups) with at most one message per input each, inputs deliver in the order of stamps and the queue does not overflow, then the sets output at any time are exactly the groups of which a message of every input has been received, each once: missing messages of a group never spoil another group.", "quantifier": "every number of inputs, every epsilon, every history of such messages, every interleaving", "why_tests_cant": "every pattern of lost messages and every interleaving", "anchors": ["include/message_filters/sync_policies/approximate_epsilon_time.hpp:ApproximateEpsilonTime::add", "include/message_filters/sync_policies/approximate_epsilon_time.hpp:ApproximateEpsilonTime::process", "include/message_filters/sync_policies/approximate_epsilon_time.hpp:ApproximateEpsilonTime::erase_old_events_if_on_sync_with_ts"]}
{"id": "C105", "title": "ExactTime with a long enough queue loses nothing", "statement": "With strictly increasing stamps per input, ExactTime with queue size q outputs a set as soon as its last message arrives unless q later stamps have been received before; if that never happens the output is that of an unlimited queue and independent of the interleaving. If all inputs deliver the same stamps and none is ever more than q messages ahead of another, every stamp delivered on all inputs is output, once and in order. With one message more this fails for every q.", "quantifier": "every number of inputs, every queue size, every history and interleaving", "why_tests_cant": "the queue size and the skew between the inputs are unbounded; a test has one of each", "anchors": ["include/message_filters/sync_policies/exact_time.hpp:ExactTime::add", "include/message_filters/sync_policies/exact_time.hpp:ExactTime::checkTuple", "include/message_filters/sync_policies/exact_time.hpp:ExactTime::clearOldTuples"]}
{"id": "C106", "title": "Drop callbacks are told which messages are missing", "statement": "A drop callback of ExactTime is called with the messages of the dropped set and null pointers for the missing ones, whatever form its parameters have (the forms of callbacks of filters: by value, by reference, shared pointer to const or not, event). Every dropped set has a missing message.", "quantifier": "every history, every queue size and number of inputs, every number and form of drop callbacks", "why_tests_cant": "every combination of forms and missing messages; tests use one form", "anchors": ["include/message_filters/sync_policies/exact_time.hpp:ExactTime::registerDropCallback", "include/message_filters/sync_policies/exact_time.hpp:ExactTime::call_drop_signal", "include/message_filters/parameter_adapter.hpp:ParameterAdapter", "include/message_filters/message_event.hpp:MessageEvent::copyMessageIfNecessary", "include/message_filters/signal9.hpp:CallbackHelper9T::call"]}
{"id": "C107", "title": "TimeSequencer sorts what arrives in time", "statement": "If every message (with system-clock stamps) is added before a tick sees the time at which it is due, and the queue has room for the messages that wait, then nothing is rejected or evicted, and what is delivered, followed by what is queued, is the added messages sorted by stamp, equal stamps in the order of arrival. So the order of arrival does not matter, and after a tick at which everything is due exactly the sorted messages have been delivered.", "quantifier": "every history of additions and ticks, every clock behaviour, every delay and queue size", "why_tests_cant": "all arrival orders and interleavings with ticks; tests add a few messages in one order", "anchors": ["include/message_filters/time_sequencer.hpp:TimeSequencer::add", "include/message_filters/time_sequencer.hpp:TimeSequencer::dispatch"]}
{"id": "C108", "title": "InputAligner merges regular inputs deterministically", "statement": "If every input delivers messages in order, at least its period apart, and at no dispatch an input has been silent for the timeout beyond the time it was expected, then nothing is dropped and the outputs together are the merge of the inputs by stamp, equal stamps in the order of the inputs, whatever the interleaving of additions and dispatches and whatever the timeout. A message is forwarded by the first dispatch at which every other input has delivered, or is expected again, later than it.", "quantifier": "every number of inputs, all periods and timeouts that are not negative, every history, every interleaving", "why_tests_cant": "exponentially many interleavings of additions and dispatches; tests run a few", "anchors": ["include/message_filters/input_aligner.hpp:InputAligner::dispatchMessages", "include/message_filters/input_aligner.hpp:InputAligner::dispatchFirstMessage", "include/message_filters/input_aligner.hpp:InputAligner::addEvent", "include/message_filters/input_aligner.hpp:InputAligner::EventQueue::firstTimeStamp"]}
{"id": "C109", "title": "InputAligner never holds a message for longer than the timeout", "statement": "After dispatchMessages every message still queued is less than the timeout older than every message that was forwarded or is queued; with timeout zero nothing stays queued.", "quantifier": "every number of inputs, every timeout that is not negative, every history of additions, periods and dispatches", "why_tests_cant": "a bound over all histories, with inputs that fall silent and come back at any time", "anchors": ["include/message_filters/input_aligner.hpp:InputAligner::dispatchMessages", "include/message_filters/input_aligner.hpp:InputAligner::dispatchFirstMessage"]}
{"id": "C110", "title": "ApproximateTime outputs exactly the groups that belong together", "statement": "If the messages fall into groups with at most one message per input each, and the maximum interval is no shorter than any group and shorter than the time between any two groups, then (inputs in order, queue not overflowing) every set output is a complete group, in order and each once, and every group of which all inputs have a message has been output once all inputs have received a message of a later group; lost messages never lead to a mixed set. Without a maximum interval the same holds if no input misses a group, for which some spread must separate the groups.", "quantifier": "every number of inputs, every maximum interval, age penalty and lower bounds, every history and interleaving", "why_tests_cant": "every pattern of lost messages and interleaving, and all stamps consistent with the groups", "anchors": ["include/message_filters/sync_policies/approximate_time.hpp:ApproximateTime::process", "include/message_filters/sync_policies/approximate_time.hpp:ApproximateTime::setMaxIntervalDuration", "include/message_filters/sync_policies/approximate_time.hpp:ApproximateTime::publishCandidate"]}
{"id": "C111", "title": "In-order arrival needs only short queues", "statement": "If messages arrive in the order of their stamps whatever the input, as they leave an InputAligner with timely inputs, ExactTime with queue size 1 outputs every matching set (inputs strictly increasing), ApproximateEpsilonTime with queue size 1 outputs exactly the complete groups (groups of at most one message per input within epsilon, never closer across groups), even though messages of incomplete groups overflow the queues, and ApproximateTime with queue size 2 outputs exactly the groups of the InputAligner's inputs if no input misses one. More generally ApproximateTime never overflows queues of more than k messages if no input misses a group or is more than k messages ahead of another.", "quantifier": "every number of inputs, every history and interleaving, every queue size from the stated one on, every epsilon, maximum interval, age penalty, period and timeout", "why_tests_cant": "composition of two filters over all interleavings; tests never connect an InputAligner to a synchronizer", "anchors": ["include/message_filters/sync_policies/exact_time.hpp:ExactTime::clearOldTuples", "include/message_filters/sync_policies/approximate_epsilon_time.hpp:ApproximateEpsilonTime::add", "include/message_filters/sync_policies/approximate_time.hpp:ApproximateTime::add", "include/message_filters/input_aligner.hpp:InputAligner::dispatchMessages"]}
{"id": "C112", "title": "Filters may be destroyed while other threads deliver to them", "statement": "While other threads make the filters it is connected to signal messages, a filter can be destroyed: its destructor waits for the callbacks that are running, no callback uses the filter afterwards, and the destructor and the calls of the other threads can always be completed.", "quantifier": "every number of inputs and of threads, every wiring of the inputs to upstream filters, every interleaving, for Cache, TimeSequencer, InputAligner, the synchronizers, PassThrough", "why_tests_cant": "a race between a destructor and a signal; tests destroy filters in the thread that signals", "anchors": ["include/message_filters/cache.hpp:Cache::~Cache", "include/message_filters/time_sequencer.hpp:TimeSequencer::~TimeSequencer", "include/message_filters/synchronizer.hpp:Synchronizer::disconnectAll", "include/message_filters/input_aligner.hpp:InputAligner::~InputAligner", "include/message_filters/signal1.hpp:Signal1::removeCallback", "include/message_filters/signal1.hpp:Signal1::call", "include/message_filters/pass_through.hpp:PassThrough"]}
{"id": "C113", "title": "A Chain can be destroyed together with its filters", "statement": "A Chain that holds the only pointers to filters added to it can be destroyed, whatever the filters: no filter or connection is used after its destruction. The same holds if some of the filters survive.", "quantifier": "every program that builds a chain of any length from any filters, every choice of the filters it owns, every order in which a vector may destroy its elements", "why_tests_cant": "use after free that shows only under a memory checker; tests own PassThrough filters only", "anchors": ["include/message_filters/chain.hpp:Chain::addFilter", "include/message_filters/chain.hpp:Chain::FilterInfo", "include/message_filters/pass_through.hpp:PassThrough", "include/message_filters/cache.hpp:Cache::~Cache", "include/message_filters/time_sequencer.hpp:TimeSequencer::~TimeSequencer", "include/message_filters/connection.cpp:Connection::disconnect"]}
{"id": "C114", "title": "Callbacks may call the methods of the filter that calls them", "statement": "A callback may call the methods of the filter that calls it: the call returns and takes effect as if made right after the call that signalled. A message it adds is passed on like any other.", "quantifier": "every filter state, every sequence of calls, every callback (an interactive program that depends on all results and on everything done so far)", "why_tests_cant": "a deadlock in one thread that needs a certain callback; tests use callbacks that only count or store messages", "anchors": ["include/message_filters/cache.hpp:Cache::add", "include/message_filters/time_sequencer.hpp:TimeSequencer::dispatch", "include/message_filters/input_aligner.hpp:InputAligner::dispatchMessages", "include/message_filters/sync_policies/exact_time.hpp:ExactTime::add", "include/message_filters/sync_policies/approximate_time.hpp:ApproximateTime::add", "include/message_filters/sync_policies/approximate_epsilon_time.hpp:ApproximateEpsilonTime::add", "include/message_filters/sync_policies/latest_time.hpp:LatestTime::add", "include/message_filters/signal1.hpp:Signal1::call"]}
{"id": "C115", "title": "A message that a filter keeps does not change", "statement": "The content of a message stored in a Cache, a TimeSequencer or a synchronizer stays what it was when it was added, whatever callbacks anywhere do with the messages they are given, then or later.", "quantifier": "every network of filters, every kind of callback parameter, every sequence of messages, signals (in any order, repeated) and later writes by callbacks", "why_tests_cant": "aliasing between a stored message and one handed to a callback that keeps the pointer; tests use const callbacks or look at the message at once", "anchors": ["include/message_filters/cache.hpp:Cache::add", "include/message_filters/message_event.hpp:MessageEvent::copyMessageIfNecessary", "include/message_filters/signal1.hpp:CallbackHelper1T::call", "include/message_filters/signal9.hpp:CallbackHelper9T::call", "include/message_filters/parameter_adapter.hpp:ParameterAdapter", "include/message_filters/subscriber.hpp:Subscriber::cb"]}
{"id": "C116", "title": "Cache queries are exact for every size of the cache", "statement": "The answers of getSurroundingInterval, getElemBeforeTime and getElemAfterTime are those of C10 and C11 however many messages the cache holds, up to the largest size setCacheSize accepts (an unsigned int).", "quantifier": "every history of additions, resizings and queries of a cache, all sizes up to UINT_MAX, 32 bit int", "why_tests_cant": "needs more than 2^31 messages in memory", "anchors": ["include/message_filters/cache.hpp:Cache::getSurroundingInterval", "include/message_filters/cache.hpp:Cache::getElemBeforeTime", "include/message_filters/cache.hpp:Cache::getElemAfterTime", "include/message_filters/cache.hpp:Cache::setCacheSize"]}
{"id": "C117", "title": "getMessage returns a whole message or throws", "statement": "getMessage of an event returns a message with the content of the message the event was made from, or throws, also if the message factory or copying the message throws; callbacks are never given an incomplete copy. Events of null messages can be passed to all callbacks that take pointers or events.", "quantifier": "every sequence of constructions, copies, assignments and reads of events; every behaviour of the factory (new object, exception) and of copying (success, exception with any partial result) in every call; every network of filters and all parameter kinds", "why_tests_cant": "a throwing copy assignment (out of memory in the middle of a message) at any point of any program", "anchors": ["include/message_filters/message_event.hpp:MessageEvent::copyMessageIfNecessary", "include/message_filters/message_event.hpp:MessageEvent::operator=", "include/message_filters/message_event.hpp:MessageEvent::getMessageFactory", "include/message_filters/signal1.hpp:CallbackHelper1T::call", "include/message_filters/parameter_adapter.hpp:ParameterAdapter"]}
{"id": "C118", "title": "An event can be used by several threads", "statement": "getMessage is a const method: if several threads call it on one event, all calls return a message with the content of the event's message, and the same object each time, without a data race.", "quantifier": "every number of threads and calls, every interleaving, const and non-const events, with and without demand for copies", "why_tests_cant": "depends on the interleaving of a few instructions", "anchors": ["include/message_filters/message_event.hpp:MessageEvent::getMessage", "include/message_filters/message_event.hpp:MessageEvent::copyMessageIfNecessary"]}
{"id": "C119", "title": "A TimeSequencer is at most one update period late", "statement": "If the timer ticks at least once per update period and every message arrives less than the delay after it was stamped, then at any time exactly the messages that arrived have been passed on or wait, in the order of their stamps; none is passed on before stamp + delay, none waits beyond stamp + delay + update period; a queue for the messages of delay + update period suffices, one for the messages of the delay does not.", "quantifier": "every history of timed additions and ticks, every delay, update period and queue size", "why_tests_cant": "a bound on lateness and on the queue needed, over all arrival patterns in real time", "anchors": ["include/message_filters/time_sequencer.hpp:TimeSequencer::dispatch", "include/message_filters/time_sequencer.hpp:TimeSequencer::add", "include/message_filters/time_sequencer.hpp:TimeSequencer::init"]}
{"id": "C120", "title": "Output callbacks may change the parameters of the ApproximateTime policy that calls them", "statement": "A callback of an ApproximateTime policy may call its setters. No such run fails, no message is lost otherwise than without callbacks, each set is complete and spans at most the maximum interval in force since the previous set was output; for streams in time order every set is optimal, and without full queues exactly the set found by a search, with the parameters left by the callback of the previous set, so the order of arrival does not matter. A callback that adds a message blocks for ever.", "quantifier": "every sequence of messages, every callback (a function of all sets output so far), all parameters", "why_tests_cant": "re-entrant calls at arbitrary points of the search, for all callbacks", "anchors": ["include/message_filters/sync_policies/approximate_time.hpp:ApproximateTime::publishCandidate", "include/message_filters/sync_policies/approximate_time.hpp:ApproximateTime::process", "include/message_filters/sync_policies/approximate_time.hpp:ApproximateTime::setAgePenalty", "include/message_filters/sync_policies/approximate_time.hpp:ApproximateTime::setInterMessageLowerBound", "include/message_filters/sync_policies/approximate_time.hpp:ApproximateTime::setMaxIntervalDuration"]}
{"id": "C121", "title": "Output callbacks may set the periods of the InputAligner that calls them", "statement": "An output callback of an InputAligner may call setInputPeriod and getQueueStatus. No such run fails, blocks or loops; everything forwarded is still in time order, nothing is lost or dropped otherwise than late, dispatchMessages stops only when it must wait, and nothing overtakes what an input predicts. A period set in the callback of a message does not change the prediction already made from that message, only later ones; the status read there still counts the message as waiting. A callback that adds a message or dispatches blocks for ever.", "quantifier": "every number of inputs, every sequence of calls, every callback (a function of all messages forwarded so far and the status of all inputs)", "why_tests_cant": "re-entrant calls at every iteration of the dispatch loop, for all callbacks", "anchors": ["include/message_filters/input_aligner.hpp:InputAligner::dispatchMessages", "include/message_filters/input_aligner.hpp:InputAligner::dispatchFirstMessage", "include/message_filters/input_aligner.hpp:InputAligner::setInputPeriod", "include/message_filters/input_aligner.hpp:InputAligner::getQueueStatus"]}
{"id": "C122", "title": "Output callbacks may reconfigure the LatestTime policy that calls them, but only a change of clock has an effect", "statement": "An output callback of a LatestTime policy may call setRateConfig, setRateConfigPerMessage and setClock. Such a run fails exactly if the same additions fail without a callback, and every set passed on consists of the latest messages of all inputs. A configuration set in a callback, or from outside after every input has received a message, never has any effect. A clock set in a callback gives the time of all later messages: while all clocks are of one source nothing is thrown; a callback that sets a clock of another source is called at most once. A callback that adds a message blocks for ever.", "quantifier": "every number of inputs, every sequence of calls and clock readings, every arithmetic, every callback (a function of all sets passed on so far)", "why_tests_cant": "re-entrant calls, for all callbacks and histories; absence of an effect for ever", "anchors": ["include/message_filters/sync_policies/latest_time.hpp:LatestTime::add", "include/message_filters/sync_policies/latest_time.hpp:LatestTime::setRateConfig", "include/message_filters/sync_policies/latest_time.hpp:LatestTime::setRateConfigPerMessage", "include/message_filters/sync_policies/latest_time.hpp:LatestTime::setClock", "include/message_filters/sync_policies/latest_time.hpp:LatestTime::publish"]}
{"id": "C123", "title": "A filter that is being destroyed is not called by its timer", "statement": "If the timer callback of a TimeSequencer or an InputAligner is not running when its destruction begins, the timer does not call the filter during or after the destruction, whatever the executors do. Until then the timer in use can be called at any time. Setting up the dispatch timer of an InputAligner again replaces the timer: the old one is called only by executors that hold it already.", "quantifier": "any number of executors, every interleaving of their steps with those of the destructor, any number of timers set up", "why_tests_cant": "needs the executor to be between finding the timer ready and calling it when the filter is destroyed", "anchors": ["include/message_filters/time_sequencer.hpp:TimeSequencer::~TimeSequencer", "include/message_filters/time_sequencer.hpp:TimeSequencer::init", "include/message_filters/input_aligner.hpp:InputAligner::~InputAligner", "include/message_filters/input_aligner.hpp:InputAligner::setupDispatchTimer"]}
{"id": "C124", "title": "A Python Subscriber takes the arguments of a subscription and passes every message on", "statement": "The constructor of the Python Subscriber accepts every way to give the arguments of an rclpy subscription, by position or by keyword, and subscribes with exactly these, 10 being the default QoS profile. Every message received is then given to all registered callbacks, to each once and in order.", "quantifier": "all positional and keyword arguments, all values, every sequence of registrations and messages", "why_tests_cant": "all ways to give the arguments", "anchors": ["src/message_filters/__init__.py:Subscriber.__init__", "src/message_filters/__init__.py:Subscriber.callback", "src/message_filters/__init__.py:Subscriber.getTopic"]}
