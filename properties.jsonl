{"id": "C01", "title": "Observer obeys the on_next* (on_error|on_completed)? grammar", "statement": "Whatever sequence of on_next, on_error, on_completed, set_upstream and dispose calls is made (one after another) on an observer, its callbacks fire as zero or more on_next followed by at most one of on_error/on_completed, and nothing fires after a terminal callback or after its subscription was disposed. Values are delivered unchanged and in call order.", "quantifier": "every finite sequence of calls (including calls after a terminal one), every user callback that may throw or dispose its own subscription as a function of everything delivered so far", "why_tests_cant": "The number of call sequences and callback behaviours is unbounded; tests only try a few well-formed ones.", "anchors": ["src/rpp/rpp/observers/observer.hpp: observer_impl::on_next, on_error, on_completed, is_disposed", "src/rpp/rpp/observers/details/disposable_strategy.hpp: local_disposable_strategy"]}
{"id": "C02", "title": "An exception thrown by an on_next callback becomes exactly one on_error", "statement": "If the on_next callback of an observer throws e, then the very next (and last) callback that fires on that observer is on_error(e); the exception does not reach the caller and no later value is delivered.", "quantifier": "every call sequence, every callback, every position at which it throws", "why_tests_cant": "Needs all positions and all suffixes of calls after the throw.", "anchors": ["src/rpp/rpp/observers/observer.hpp: observer_impl::on_next, on_error", "docs/readme.md"]}
{"id": "C03", "title": "Upstream resources are released once the observer terminates or is disposed", "statement": "After an observer received a terminal event, or its subscription was disposed, every disposable ever passed to it through set_upstream - before or after that moment - is disposed; and none of them is disposed before that moment by the observer.", "quantifier": "every sequence of set_upstream / on_next / on_error / on_completed / dispose calls; unlimited number of upstreams; also observers with a fixed capacity for upstreams", "why_tests_cant": "Interleavings of set_upstream with termination are unbounded; the failure needs a specific late registration or an overflow.", "anchors": ["src/rpp/rpp/observers/observer.hpp: set_upstream, on_error, on_completed", "src/rpp/rpp/observers/details/disposable_strategy.hpp: local_disposable_strategy", "src/rpp/rpp/disposables/details/container.hpp: static_disposables_container::push_back"]}
{"id": "C04", "title": "Operator chains preserve the grammar and stop upstream work", "statement": "For every chain built from the single-source operators, with any downstream observer: once the downstream is terminated or disposed, no event pushed into the top of the chain has any effect, the top of the chain reports is_disposed, and events reach the downstream only in grammatical order.", "quantifier": "every chain length, every mix of the modelled operators, every input sequence (even ill-formed), every downstream observer", "why_tests_cant": "Compositional property over unboundedly many chains.", "anchors": ["src/rpp/rpp/observables/details/chain_strategy.hpp: observable_chain_strategy::subscribe", "src/rpp/rpp/operators/details/strategy.hpp: lift_operator"]}
{"id": "C05", "title": "Re-entrant calls during a terminal callback", "statement": "While an observer's on_completed/on_error callback is running, calling on_next/on_error/on_completed on that same observer again must not fire further callbacks.", "quantifier": "every observer callback that calls back into the same observer", "why_tests_cant": "The offending schedule needs a callback that re-enters; tests normally never do this.", "anchors": ["src/rpp/rpp/observers/observer.hpp: on_error 120-129, on_completed 135-144"]}
{"id": "C06", "title": "Composite disposable: nothing added survives a dispose, under every interleaving", "statement": "With any number of threads concurrently calling add, remove, clear and dispose on one composite disposable, whenever all calls have returned and dispose has been called, every child that was successfully added and not removed is disposed, and no child is ever disposed while the composite has neither been disposed nor cleared.", "quantifier": "every number of threads, every program of operations per thread, every interleaving of the atomic steps", "why_tests_cant": "Exponentially many schedules; race windows are a few instructions wide.", "anchors": ["src/rpp/rpp/disposables/composite_disposable.hpp: composite_disposable_impl::dispose_impl, add, remove, clear"]}
{"id": "C07", "title": "Composite disposable: adding to an already disposed one disposes the child at once", "statement": "If dispose() on a composite has returned before add(d) is called, d is disposed when add(d) returns, and the composite keeps no reference to it; is_disposed stays true forever after.", "quantifier": "every history of earlier operations and every child", "why_tests_cant": "Universally quantified over histories.", "anchors": ["src/rpp/rpp/disposables/composite_disposable.hpp: add 65-96, is_disposed"]}
{"id": "C08", "title": "A disposable's action runs exactly once", "statement": "However many threads call dispose() on a callback disposable and however the calls interleave, the callback runs at most once, and exactly once by the time all calls made have returned (a concurrent second caller may return before the callback has run).", "quantifier": "every number of concurrent and repeated dispose calls, every interleaving", "why_tests_cant": "Double execution needs a precise race.", "anchors": ["src/rpp/rpp/disposables/details/base_disposable.hpp: dispose 36-41", "src/rpp/rpp/disposables/callback_disposable.hpp"]}
{"id": "C09", "title": "Composite disposable: mutual exclusion and absence of lost children", "statement": "No two threads ever modify the child list of a composite at the same time, and the child list always equals the result of executing the completed add/remove/clear calls one after another in some order consistent with their real-time order.", "quantifier": "every interleaving of any number of threads", "why_tests_cant": "Linearizability quantifies over all schedules.", "anchors": ["src/rpp/rpp/disposables/composite_disposable.hpp: add, remove, clear, dispose_impl"]}
{"id": "C10", "title": "Composite clear() must be callable when a child's disposal touches the same composite", "statement": "clear() on a composite terminates even if disposing one of its children calls add, remove, clear or dispose on the same composite.", "quantifier": "every child disposal action", "why_tests_cant": "Needs a re-entrant child.", "anchors": ["src/rpp/rpp/disposables/composite_disposable.hpp: clear 125-151"]}
{"id": "C11", "title": "Reference-counted disposable disposes exactly when the last reference is gone", "statement": "A refcount disposable becomes disposed exactly when it is disposed directly or when at least one reference was taken and all references taken so far are disposed; a reference disposed several times counts once; references requested after that are already disposed.", "quantifier": "every number of threads taking and disposing references, every interleaving", "why_tests_cant": "Counting races only appear for particular interleavings.", "anchors": ["src/rpp/rpp/disposables/refcount_disposable.hpp: add_ref, release, inner::composite_dispose_impl"]}
{"id": "C12", "title": "Fixed-capacity disposable container behaves as a bounded list", "statement": "Any sequence of push, remove, dispose and clear on the fixed-capacity container yields exactly the elements and disposals that the same sequence on an ordinary list would, except that a push into a full container fails without changing it.", "quantifier": "every capacity, every operation sequence", "why_tests_cant": "Unbounded operation sequences over raw storage with element shifting.", "anchors": ["src/rpp/rpp/disposables/details/container.hpp: static_disposables_container"]}
{"id": "C13", "title": "Scheduled tasks leave the queue in due-time order, ties in submission order", "statement": "From the schedulables queue, pop always yields a task with the smallest due time among those queued, and among equal due times the one submitted first; no task is lost or duplicated.", "quantifier": "every interleaving of emplace/re-emplace/pop operations, every due time", "why_tests_cant": "Sorted intrusive linked list: all insertion orders.", "anchors": ["src/rpp/rpp/schedulers/details/queue.hpp: schedulables_queue::emplace, emplace_impl, pop"]}
{"id": "C14", "title": "No task runs before its due time", "statement": "On the current-thread, immediate, new-thread, run-loop and test schedulers, a task scheduled for time t is never started at a time before t.", "quantifier": "every set of tasks, every due time, every clock behaviour that moves forward", "why_tests_cant": "Timing of real tests is nondeterministic.", "anchors": ["src/rpp/rpp/schedulers/current_thread.hpp: drain_queue", "src/rpp/rpp/schedulers/run_loop.hpp: dispatch_impl", "src/rpp/rpp/schedulers/test_scheduler.hpp: drain", "src/rpp/rpp/schedulers/new_thread.hpp: data_thread"]}
{"id": "C15", "title": "current_thread trampolines: nested scheduling never runs inside the scheduling task", "statement": "A task scheduled on current_thread from inside another current_thread task starts only after the scheduling task has returned; the outermost schedule call returns only when everything scheduled so far has run.", "quantifier": "every finite task tree", "why_tests_cant": "All nesting shapes.", "anchors": ["src/rpp/rpp/schedulers/current_thread.hpp: worker_strategy::defer_for, defer_to, drain_queue"]}
{"id": "C16", "title": "current_thread runs tasks in (due time, submission) order", "statement": "Tasks executed by a current_thread queue start in nondecreasing due time, equal due times in submission order, given that no task is submitted with a due time earlier than the ones already started.", "quantifier": "every finite task tree with arbitrary delays", "why_tests_cant": "All nesting shapes and delays.", "anchors": ["src/rpp/rpp/schedulers/current_thread.hpp: drain_queue"]}
{"id": "C17", "title": "Periodic tasks keep their period without drift", "statement": "A task that asks to be repeated 'd after this time point' and was first due at t runs for the k-th time no earlier than t + k*d (immediate, current_thread, run_loop, new_thread, test schedulers).", "quantifier": "every k, period, start time, and running time of the task", "why_tests_cant": "k is unbounded; tests only measure a few repetitions with tolerance.", "anchors": ["src/rpp/rpp/schedulers/current_thread.hpp: drain_queue 105-142", "src/rpp/rpp/schedulers/details/utils.hpp: immediate_scheduling_while_condition", "src/rpp/rpp/schedulers/fwd.hpp: delay_from_this_timepoint", "src/rpp/rpp/sources/interval.hpp"]}
{"id": "C18", "title": "Tasks of a disposed subscriber do not run", "statement": "A task is never started when its handler (observer) is already disposed at the moment the scheduler picks it; it is dropped without being executed or rescheduled.", "quantifier": "every scheduler model, queue content, and disposal pattern", "why_tests_cant": "All disposal moments.", "anchors": ["src/rpp/rpp/schedulers/details/queue.hpp: specific_schedulable::is_disposed", "src/rpp/rpp/schedulers/current_thread.hpp", "src/rpp/rpp/schedulers/test_scheduler.hpp", "src/rpp/rpp/schedulers/run_loop.hpp"]}
{"id": "C19", "title": "test_scheduler advances virtual time exactly", "statement": "time_advance(d) runs exactly the tasks (including ones they schedule) due at or before now+d, each at a virtual time equal to its due time (or the current time if it is overdue), in due order, and leaves now increased by exactly d.", "quantifier": "every set of pending tasks, nested scheduling and d", "why_tests_cant": "All task trees.", "anchors": ["src/rpp/rpp/schedulers/test_scheduler.hpp: drain 36-59, time_advance 102-106"]}
{"id": "C20", "title": "An exception in a scheduled task reaches the handler once and stops the repetition", "statement": "If a scheduled callable throws, the exception is passed to its handler's on_error exactly once, the task is not rescheduled, and the scheduler keeps running the remaining tasks.", "quantifier": "every task position, every number of earlier repetitions", "why_tests_cant": "All positions.", "anchors": ["src/rpp/rpp/schedulers/details/queue.hpp: specific_schedulable::operator(), make_advanced_call"]}
{"id": "C21", "title": "thread_pool distributes workers round robin", "statement": "The i-th created worker of a thread pool with n threads is bound to thread i mod max(1,n) - all tasks of one worker run on one thread.", "quantifier": "every n and i (including wrap-around of the index), worker creations on one thread", "why_tests_cant": "All counts.", "anchors": ["src/rpp/rpp/schedulers/thread_pool.hpp: ctor 75-81, get 83"]}
{"id": "C22", "title": "new_thread worker executes its tasks sequentially and before it is destroyed", "statement": "All tasks submitted to one new_thread worker run one after another on one thread in (due time, submission) order, and tasks submitted before the worker goes away still run.", "quantifier": "every submission interleaving with the thread loop", "why_tests_cant": "Needs all interleavings of submit/notify/wait.", "anchors": ["src/rpp/rpp/schedulers/new_thread.hpp: data_thread 65-117"]}
{"id": "C23", "title": "run_loop dispatches each submitted task once in order and can always be stopped", "statement": "Every task pushed to a run_loop is executed at most once, in (due, submission) order among tasks present when it is picked; dispatch on a disposed run_loop returns without running a task.", "quantifier": "every interleaving of pushes, dispatches and dispose", "why_tests_cant": "All interleavings.", "anchors": ["src/rpp/rpp/schedulers/run_loop.hpp: emplace_and_notify, pop, dispatch_impl, base_dispose"]}
{"id": "C24", "title": "map / filter / tap / finally semantics", "statement": "map emits f of every value, filter exactly the values satisfying the predicate, tap calls its callbacks once per event passed on before passing it, all in source order; the terminal event is forwarded; the first exception thrown by the function ends the sequence with on_error of it. finally runs its callback exactly once when the subscription ends.", "quantifier": "every event sequence, function, downstream observer (which may unsubscribe or throw at any moment)", "why_tests_cant": "All inputs.", "anchors": ["src/rpp/rpp/operators/map.hpp", "src/rpp/rpp/operators/filter.hpp", "src/rpp/rpp/operators/tap.hpp", "src/rpp/rpp/operators/finally.hpp"]}
{"id": "C25", "title": "take / skip / element_at / first / last / take_last / take_while semantics", "statement": "take(n) delivers the first n values and completes right with the n-th (take(0) delivers nothing and completes when the first value arrives); skip(n) drops exactly n; element_at(i) delivers the i-th value and completes or errors if there are too few; first/last deliver the first/last value or error when empty; take_last(n) delivers the last n values at completion and nothing before; take_while delivers the longest satisfying prefix and completes at the first violation.", "quantifier": "every n, event sequence, downstream", "why_tests_cant": "All inputs; boundary errors (n-1, n, n+1, ring buffer wrap) at every size.", "anchors": ["src/rpp/rpp/operators/take.hpp", "src/rpp/rpp/operators/skip.hpp", "src/rpp/rpp/operators/element_at.hpp", "src/rpp/rpp/operators/first.hpp", "src/rpp/rpp/operators/last.hpp", "src/rpp/rpp/operators/take_last.hpp", "src/rpp/rpp/operators/take_while.hpp"]}
{"id": "C26", "title": "distinct / distinct_until_changed semantics", "statement": "distinct delivers exactly the first occurrence of every value; distinct_until_changed delivers a value iff it differs (by the comparator) from the previously delivered one.", "quantifier": "every sequence over any type with decidable equality, every comparator", "why_tests_cant": "All inputs.", "anchors": ["src/rpp/rpp/operators/distinct.hpp", "src/rpp/rpp/operators/distinct_until_changed.hpp"]}
{"id": "C27", "title": "scan / reduce semantics", "statement": "scan with a seed delivers the seed and then every left fold prefix; without a seed the first value is the seed; reduce delivers only the total fold at completion (nothing if there is no seed and no value); a throwing accumulator ends the sequence with its exception.", "quantifier": "every accumulator, seed and sequence", "why_tests_cant": "All inputs.", "anchors": ["src/rpp/rpp/operators/scan.hpp", "src/rpp/rpp/operators/reduce.hpp"]}
{"id": "C28", "title": "buffer semantics", "statement": "buffer(n) delivers consecutive chunks of exactly max(1,n) values whose concatenation is the input; on completion the non-empty remainder is delivered first; on error the remainder is dropped.", "quantifier": "every n and sequence", "why_tests_cant": "All sizes.", "anchors": ["src/rpp/rpp/operators/buffer.hpp 32-59"]}
{"id": "C29", "title": "window semantics", "statement": "window(n) opens a new window only when a value arrives and none is open, each window receives exactly max(1,n) consecutive values then completes, and termination of the source terminates the open window and then the outer sequence with the same event.", "quantifier": "every n and sequence; every behaviour of the subscriber of the outer sequence and of the windows", "why_tests_cant": "All sizes.", "anchors": ["src/rpp/rpp/operators/window.hpp 41-111", "src/rpp/rpp/operators/details/forwarding_subject.hpp"]}
{"id": "C30", "title": "group_by semantics", "statement": "group_by delivers one group per distinct key in order of first appearance, every value reaches exactly the group of its key in order, termination reaches every group and the outer sequence; unsubscribing the outer keeps open groups alive, and the source is released when the outer and all groups are gone.", "quantifier": "every key/element selector (possibly throwing), comparator and sequence", "why_tests_cant": "All inputs.", "anchors": ["src/rpp/rpp/operators/group_by.hpp 62-158"]}
{"id": "C31", "title": "throttle semantics", "statement": "throttle(d) delivers a value iff at least d has passed since the arrival of the last delivered value (or none was delivered).", "quantifier": "every sequence of timestamped values and every d", "why_tests_cant": "Tests cover few timings.", "anchors": ["src/rpp/rpp/operators/throttle.hpp 34-42"]}
{"id": "C32", "title": "merge delivers every value of every source and completes last", "statement": "merge delivers each value of each inner observable exactly once, in per-source order, completes exactly when the outer and all inners have completed, and forwards the first error immediately, after which nothing follows.", "quantifier": "every number of sources and every interleaving of their events", "why_tests_cant": "All interleavings.", "anchors": ["src/rpp/rpp/operators/merge.hpp: merge_state, merge_observer_strategy"]}
{"id": "C33", "title": "concat subscribes sources one at a time in order", "statement": "concat delivers all values of the first observable, then of the second, and so on; it subscribes the next one only after the previous completed; it completes when the outer and the last inner completed; an error stops everything. This must hold also when the outer source and the inner observables run on different threads.", "quantifier": "every arrival pattern of observables and inner events; every interleaving of two threads", "why_tests_cant": "Race in the drain/hand-over protocol is only visible for specific schedules.", "anchors": ["src/rpp/rpp/operators/concat.hpp: concat_state_t::drain, handle_observable, concat_observer_strategy::on_next, on_completed"]}
{"id": "C34", "title": "switch_on_next follows only the latest inner observable", "statement": "After a new inner observable arrived, values of earlier ones are no longer delivered; the result completes when the outer and the current inner have completed.", "quantifier": "every history of atomic events; every interleaving for the race part", "why_tests_cant": "Histories unbounded; race needs particular schedule.", "anchors": ["src/rpp/rpp/operators/switch_on_next.hpp"]}
{"id": "C35", "title": "zip pairs the i-th values", "statement": "The i-th value delivered by zip is the combination of the i-th values of all sources, and it is delivered as soon as the slowest source has produced its i-th value; the number of delivered values equals the minimum count over sources while no source has failed.", "quantifier": "every number of sources and every interleaving", "why_tests_cant": "All interleavings.", "anchors": ["src/rpp/rpp/operators/zip.hpp 50-67", "src/rpp/rpp/operators/details/combining_strategy.hpp"]}
{"id": "C36", "title": "combine_latest combines the most recent values", "statement": "Whenever any source emits and every source has emitted at least once, combine_latest delivers the combination of the most recent values of all sources; otherwise nothing. It completes when all sources have completed and forwards the first error.", "quantifier": "every number of sources and every interleaving", "why_tests_cant": "All interleavings.", "anchors": ["src/rpp/rpp/operators/combine_latest.hpp 48-63", "src/rpp/rpp/operators/details/combining_strategy.hpp"]}
{"id": "C37", "title": "with_latest_from samples the other sources", "statement": "with_latest_from delivers, for every main value arriving when all other sources have emitted, the combination with their most recent values; completion of the other sources is ignored, an error of any source and the main termination are forwarded.", "quantifier": "every number of sources and every interleaving", "why_tests_cant": "All interleavings.", "anchors": ["src/rpp/rpp/operators/with_latest_from.hpp"]}
{"id": "C38", "title": "take_until stops at the first notifier event", "statement": "take_until delivers exactly the source events before the first event of the notifier (completing on a value or completion, failing on an error), and nothing afterwards; both subscriptions are released at the end.", "quantifier": "every interleaving of source and notifier events", "why_tests_cant": "All interleavings.", "anchors": ["src/rpp/rpp/operators/take_until.hpp"]}
{"id": "C39", "title": "Combining operators survive re-entrant emission", "statement": "If, while merge/zip/combine_latest/take_until/switch is delivering a value, the downstream callback makes another source of the same operator emit on the same thread, the call returns (no self-deadlock).", "quantifier": "every downstream callback", "why_tests_cant": "Needs a re-entrant downstream.", "anchors": ["src/rpp/rpp/utils/utils.hpp: value_with_mutex 259-311", "src/rpp/rpp/operators/merge.hpp", "src/rpp/rpp/operators/take_until.hpp", "src/rpp/rpp/operators/details/combining_strategy.hpp"]}
{"id": "C40", "title": "retry(n) resubscribes at most n times", "statement": "retry(n) forwards all values of every attempt in order, resubscribes after each of the first n errors, and forwards the (n+1)-th error; retry() resubscribes after every error. The subscription of a failed attempt is released before the next one starts. This holds for synchronous sources and for sources failing on another thread while subscribe is still running.", "quantifier": "every sequence of attempt outcomes, every n, every interleaving of the two threads", "why_tests_cant": "Unbounded attempts; hand-off race of the in-drain flag.", "anchors": ["src/rpp/rpp/operators/retry.hpp"]}
{"id": "C41", "title": "retry_when / on_error_resume_next semantics", "statement": "retry_when resubscribes once per notifier value and forwards the notifier's termination; on_error_resume_next continues with the observable returned for the error and forwards an exception thrown by the selector.", "quantifier": "every outcome sequence and selector", "why_tests_cant": "All sequences.", "anchors": ["src/rpp/rpp/operators/retry_when.hpp", "src/rpp/rpp/operators/on_error_resume_next.hpp"]}
{"id": "C42", "title": "repeat / start_with / source concat semantics", "statement": "source::concat(a, b, ...) delivers all events of a, then b, ...; subscribes each after the previous completed; repeat(n) equals n copies; start_with(x) equals concat(x, source). An empty list completes at once; an error ends it. Re-entrant synchronous completion never nests subscriptions.", "quantifier": "every list of synchronous or asynchronous sources", "why_tests_cant": "All lists and completion modes.", "anchors": ["src/rpp/rpp/sources/concat.hpp", "src/rpp/rpp/operators/repeat.hpp", "src/rpp/rpp/operators/start_with.hpp"]}
{"id": "C43", "title": "delay keeps order and loses nothing", "statement": "delay(d) delivers all values and the terminal event in source order, each not before arrival + d, under every interleaving of the source thread and the worker thread; disposal stops it.", "quantifier": "every event sequence, arrival times, interleavings", "why_tests_cant": "All interleavings.", "anchors": ["src/rpp/rpp/operators/delay.hpp: emplace_safe 113-133, drain_queue 135-161"]}
{"id": "C44", "title": "observe_on delivers serially", "statement": "observe_on delivers values in order on the scheduler and never calls the downstream observer from two threads at the same time, also when the source fails.", "quantifier": "every interleaving of the source thread and the scheduler thread", "why_tests_cant": "Overlap only at specific schedules.", "anchors": ["src/rpp/rpp/operators/observe_on.hpp", "src/rpp/rpp/operators/delay.hpp: emplace_safe 113-121, drain_queue"]}
{"id": "C45", "title": "debounce semantics", "statement": "debounce(d) delivers a value exactly when no newer value arrived within d of it, delivers the pending value at completion, drops it on error.", "quantifier": "every sequence of timestamped events", "why_tests_cant": "All timings.", "anchors": ["src/rpp/rpp/operators/debounce.hpp"]}
{"id": "C46", "title": "debounce works with synchronous schedulers", "statement": "A value pushed into debounce does not block forever even if the scheduler runs tasks synchronously in schedule().", "quantifier": "every scheduler allowed by the API", "why_tests_cant": "Tests use one scheduler.", "anchors": ["src/rpp/rpp/operators/debounce.hpp: emplace_safe 48-58, extract_value_or_time 86-99"]}
{"id": "C47", "title": "timeout semantics", "statement": "timeout(d, fallback) mirrors the source while consecutive events (and subscription to first event) are less than d apart, and otherwise releases the source, ignores it from then on and mirrors the fallback. No event of the source touches the downstream after the switch.", "quantifier": "every timestamped sequence and every interleaving of the source thread with the timer", "why_tests_cant": "All timings and races.", "anchors": ["src/rpp/rpp/operators/timeout.hpp 65-152"]}
{"id": "C48", "title": "publish_subject delivers to exactly the current subscribers", "statement": "Each subscriber of a publish_subject receives exactly the values emitted between its subscription and its unsubscription or termination, in order, plus the terminal event; a subscriber coming after termination receives just the terminal event; subscribers are independent of each other.", "quantifier": "every history of subscribe / unsubscribe / on_next / on_error / on_completed", "why_tests_cant": "Unbounded histories.", "anchors": ["src/rpp/rpp/subjects/details/subject_state.hpp", "src/rpp/rpp/subjects/publish_subject.hpp"]}
{"id": "C49", "title": "Subscribing to a subject from inside its own emission", "statement": "Subscribing or unsubscribing observers from inside an on_next callback of the same subject is safe and does not disturb the current emission.", "quantifier": "every callback that subscribes/unsubscribes re-entrantly", "why_tests_cant": "Container growth makes it fail only at certain sizes.", "anchors": ["src/rpp/rpp/subjects/details/subject_state.hpp: on_next 112-131, on_subscribe 80-110"]}
{"id": "C50", "title": "behavior_subject starts every subscriber with the latest value", "statement": "A subscriber of a behavior_subject first receives the most recent value (or the initial one) and then every later value with no gap and no duplicate - also when subscription and emission happen concurrently.", "quantifier": "every history; every interleaving of one subscriber with one emitter", "why_tests_cant": "Race window between snapshot and registration.", "anchors": ["src/rpp/rpp/subjects/behavior_subject.hpp: on_next 55-59, get_observable 84-95"]}
{"id": "C51", "title": "replay_subject replays the buffered suffix", "statement": "A subscriber of a replay_subject(n, age) receives the last max(1,n) values not older than age, in order, then all later values, no gap, no duplicate.", "quantifier": "every history of values, times and subscriptions; concurrent subscription for the race part", "why_tests_cant": "Unbounded histories; race window.", "anchors": ["src/rpp/rpp/subjects/replay_subject.hpp: add_value, get_actual_values, deduce_timepoint, get_observable"]}
{"id": "C52", "title": "serialized subjects never overlap callbacks", "statement": "With a serialized subject, concurrent on_next/on_error/on_completed calls from any number of threads reach the observers one at a time, and nothing follows a terminal event.", "quantifier": "every number of threads and every interleaving", "why_tests_cant": "All schedules.", "anchors": ["src/rpp/rpp/subjects/serialized_subject.hpp", "src/rpp/rpp/subjects/details/subject_state.hpp"]}
{"id": "C53", "title": "connectable / ref_count share one source subscription", "statement": "connect subscribes the source once until disposed; ref_count connects on the first subscriber and releases the source when the last one leaves; every subscriber sees the events emitted while it is subscribed.", "quantifier": "every history of subscribe/unsubscribe/connect/source events", "why_tests_cant": "Unbounded histories.", "anchors": ["src/rpp/rpp/observables/connectable_observable.hpp 41-115"]}
{"id": "C54", "title": "gRPC writer sends every value once, in order, one write at a time, and finishes last", "statement": "The write reactor keeps at most one write in flight, writes values in on_next order, finishes only after all of them and reports an error status if the source failed.", "quantifier": "every interleaving of source events with write completions", "why_tests_cant": "All orders of completion callbacks.", "anchors": ["src/extensions/rppgrpc/rppgrpc/details/base.hpp: base_writer 27-106"]}
{"id": "C55", "title": "from / just / interval sources", "statement": "from_iterable delivers all elements in order then completes, stopping promptly when the subscriber unsubscribes; interval delivers 0,1,2,... ; both for scheduled and immediate emission.", "quantifier": "every container, every unsubscription moment", "why_tests_cant": "All lengths and moments.", "anchors": ["src/rpp/rpp/sources/from.hpp 51-128", "src/rpp/rpp/sources/interval.hpp 19-26"]}
{"id": "C56", "title": "window_toggle semantics", "statement": "window_toggle opens one window per opening event, forwards to every open window each source value arriving while it is open, closes it on the first event of its closing observable, and termination of the source terminates all open windows and the outer sequence.", "quantifier": "every interleaving of source, opening and closing events", "why_tests_cant": "All interleavings.", "anchors": ["src/rpp/rpp/operators/window_toggle.hpp"]}
{"id": "C57", "title": "new_thread runs an earlier task submitted while it waits for a later one", "statement": "When the worker's thread is waiting for the due time of one task and another thread submits a task that is due sooner, the new task runs when it is due (as soon as the clock allows), not when the older one is due.", "quantifier": "every pair of due times and every interleaving of the submission with the waiting loop", "why_tests_cant": "Depends on the order of notification, predicate evaluation and the deadline of the timed wait.", "anchors": ["src/rpp/rpp/schedulers/new_thread.hpp: data_thread 86-92"]}
{"id": "C58", "title": "A throwing selector ends zip and combine_latest at once", "statement": "When the selector of zip or combine_latest throws, the result fails with that exception and delivers nothing more; the selector is never called again, in particular never with values it has already consumed.", "quantifier": "every throwing selector, every history of non-overlapping calls; every interleaving for the race part", "why_tests_cant": "The mutex is released between the throw and the error, so the window depends on the interleaving.", "anchors": ["src/rpp/rpp/operators/zip.hpp: 50-67", "src/rpp/rpp/operators/combine_latest.hpp: 48-63", "src/rpp/rpp/observers/observer.hpp: 84-95"]}
{"id": "C59", "title": "Emitting into a serialized subject from its own callback", "statement": "An observer of a serialized subject may emit into the same subject from inside its callback: the emission is delivered and the outer emission goes on.", "quantifier": "every callback that emits re-entrantly", "why_tests_cant": "Tests of serialized subjects use several threads but no re-entrant emission; a self-deadlock is not a failing assertion.", "anchors": ["src/rpp/rpp/subjects/details/subject_state.hpp: on_next 112-131, m_serialized_mutex 192"]}
{"id": "C60", "title": "Late subscription to a closed window", "statement": "An observer that subscribes to a window (of window or window_toggle) after that window has been closed is completed at once instead of being left without any event.", "quantifier": "every history of source events, openings, closings and subscriptions", "why_tests_cant": "Whether a late subscriber hears anything depends on lifetimes of internal objects.", "anchors": ["src/rpp/rpp/operators/details/forwarding_subject.hpp 52-62", "src/rpp/rpp/operators/window.hpp 66-74", "src/rpp/rpp/operators/window_toggle.hpp 99-107"]}
{"id": "C61", "title": "window_toggle under concurrency", "statement": "The calls of one window's observer never overlap, whatever threads the source and the closing observables use, and no callback can make the operator wait for itself.", "quantifier": "every number of threads, every interleaving, every callback", "why_tests_cant": "Needs all interleavings.", "anchors": ["src/rpp/rpp/operators/window_toggle.hpp 59-65, 75-110, 143-187", "src/rpp/rpp/utils/utils.hpp 259-311"]}
{"id": "C62", "title": "A gRPC call is finished at most once", "statement": "Whatever happens (completion, failed writes, cancellation), the reactor calls Finish / StartWritesDone at most once: a second one is a fatal error of the gRPC library.", "quantifier": "every interleaving of source events, write completions, failures and cancellation", "why_tests_cant": "Two finishing callbacks have to meet.", "anchors": ["src/extensions/rppgrpc/rppgrpc/details/base.hpp: base_writer 27-106", "src/extensions/rppgrpc/rppgrpc/server_reactor.hpp 77-99, 143-168"]}
{"id": "C63", "title": "gRPC reader: each value read is emitted before the next read, one emission at a time", "statement": "The observable of a reactor emits every value read once, in order, before the next read is started, then at most one terminal event and nothing else; emissions never overlap.", "quantifier": "every interleaving of read completions, OnDone and OnCancel", "why_tests_cant": "All interleavings of library callbacks.", "anchors": ["src/extensions/rppgrpc/rppgrpc/details/base.hpp: base_reader 109-141", "src/extensions/rppgrpc/rppgrpc/server_reactor.hpp 85-99, 221-224"]}
{"id": "C64", "title": "A blocking subscription returns when, and only when, it is over", "statement": "subscribe() on as_blocking() returns only after the terminal callback has returned or the subscription was disposed, it returns at most once, and once the subscription is over it always returns: neither a notification sent before the wait nor a spurious wake-up is lost or mistaken for the end. With one well-behaved source all callbacks precede the return. When another thread disposes, at most one callback per emitting thread still starts after the return.", "quantifier": "every interleaving of the subscribing thread, emitting threads, disposing threads and spurious wake-ups", "why_tests_cant": "a lost wake-up needs the notification to fall between the check of the flag and the wait; a test hits that window by luck only", "anchors": ["src/rpp/rpp/observables/blocking_observable.hpp:22-73"]}
{"id": "C65", "title": "The statically chosen place for upstream disposables always suffices", "statement": "Every observable type fixes at compile time how many upstream disposables an observer subscribed to it can hold (fixed_disposable_strategy_selector and add<n>). However sources and operators are combined, a subscription never hands the observer more disposables than that, nor does timeout overfill its own fixed-size composite; so more_disposables_than_expected never ends a subscription. No fixed capacity is larger than needed.", "quantifier": "every observable built from the modelled sources, subjects and operators, of any depth; every subscription", "why_tests_cant": "Capacities are computed by templates over the whole chain; a test fixes one chain, and the operators compose without limit.", "anchors": ["src/rpp/rpp/observables/details/disposable_strategy.hpp:20-110", "src/rpp/rpp/observables/details/chain_strategy.hpp:30", "src/rpp/rpp/observers/observer.hpp:49-66"]}
{"id": "C66", "title": "The disposed flag is not accessed by two threads unless it is atomic", "statement": "An observer whose strategy uses the non-atomic flag (non_atomic_bool) is never in a state where one thread is about to read the flag while another thread is about to set it.", "quantifier": "every observable type, every interleaving of source thread and worker threads of delay/observe_on", "why_tests_cant": "A race on a bool is invisible without a sanitizer and needs the right moment; the choice of the flag type is made by templates.", "anchors": ["src/rpp/rpp/observers/details/disposable_strategy.hpp:46-96", "src/rpp/rpp/operators/delay.hpp:57-81,174", "src/rpp/rpp/observables/details/disposable_strategy.hpp:20-70"]}
{"id": "C67", "title": "thread_pool distributes workers evenly whoever creates them", "statement": "create_worker always returns one of the pool's workers, and successive calls, from any threads, return them in turn.", "quantifier": "every pool size, every number of threads and calls, every interleaving of the load and the store of m_index", "why_tests_cant": "Needs two threads inside m_index++ at once.", "anchors": ["src/rpp/rpp/schedulers/thread_pool.hpp:70-90"]}
{"id": "C68", "title": "Operators with several sources release what their sources handed over", "statement": "With merge, take_until, with_latest_from, zip and combine_latest: once the result has ended (error, completion, unsubscription) and the calls in progress have returned, every disposable handed over by any source - also one handed over during or after that end - is disposed; the disposable of a source that has ended is disposed although other sources go on; and nothing is disposed whose source has not ended while the result goes on.", "quantifier": "every number of sources, every interleaving of their calls with unsubscription by any thread", "why_tests_cant": "A disposable handed over while another thread disposes needs the add to fall between the flag and the release of the children; a leak has no visible effect in a test.", "anchors": ["src/rpp/rpp/operators/merge.hpp:22-150", "src/rpp/rpp/operators/take_until.hpp", "src/rpp/rpp/operators/with_latest_from.hpp", "src/rpp/rpp/operators/details/combining_strategy.hpp", "src/rpp/rpp/observers/observer.hpp:49-144"]}
{"id": "C69", "title": "switch_on_next and concat release what their sources handed over", "statement": "With switch_on_next and concat: once the result has ended (error, completion, unsubscription) and the calls in progress have returned, every disposable handed over by the outer source or by any inner observable is disposed; the disposable of a source that has ended is disposed although the result goes on. switch_on_next also disposes everything an inner observable handed over once a later one has arrived, and never disposes anything handed over by a source that is neither ended nor replaced while the result goes on.", "quantifier": "every sequence of inner observables, every interleaving of the sources' calls with each other and with unsubscription by any thread", "why_tests_cant": "Whether a disposable added during the switch lands in the old or the new reference depends on the interleaving, and a leaked or early-disposed one shows only as a subscription that keeps running or stops.", "anchors": ["src/rpp/rpp/operators/switch_on_next.hpp:25-140", "src/rpp/rpp/operators/concat.hpp:30-200", "src/rpp/rpp/disposables/refcount_disposable.hpp:20-130"]}
{"id": "C70", "title": "Disposables are disposed at the latest with their last owner, once, and for a reason", "statement": "A disposable made through a wrapper is disposed at most once, whatever wrappers, composites and references exist to it; when a call returns, everything that no variable, no composite and no reference owns any more has been disposed; nothing is disposed unless the user called dispose on it, its last owner vanished, it was added to a composite that was disposed or gone, or a composite it had been added to was disposed; conversely what the user disposes, what is added to something disposed or gone, and what was put into a composite (and not removed) that is disposed, is disposed before the call returns; while somebody owns it, it exists; a reference made in the default mode keeps its source alive until the reference is disposed, one made in the other mode is kept alive by its source; and every call returns, however the disposables are linked.", "quantifier": "every program of make, add_ref, copy, as_weak, assign/reset, dispose, add and remove on any number of wrapper variables", "why_tests_cant": "tests check a few fixed shapes; cycles, last-owner destruction in the middle of a disposal and deep chains are a combinatorial space", "anchors": ["src/rpp/rpp/disposables/disposable_wrapper.hpp:43-240", "src/rpp/rpp/disposables/composite_disposable.hpp:41-121", "src/rpp/rpp/disposables/refcount_disposable.hpp:72-115"]}
{"id": "C71", "title": "A disposed reference of a refcounted disposable is dropped by it (refuted: references pile up)", "statement": "The intended claim that a reference obtained with add_ref is no longer kept by its source once it has been disposed is false in the mode where the source owns the reference: whatever the program, unless the user removes it explicitly, such a reference stays in its source until the source itself is disposed, so n references that were made, disposed and given up one after the other leave n entries behind (concat uses this mode for every inner observable).", "quantifier": "every program without explicit remove; every number n of references", "why_tests_cant": "the leak has no functional effect and the tests look at values and disposal flags only", "anchors": ["src/rpp/rpp/disposables/refcount_disposable.hpp:81-90", "src/rpp/rpp/disposables/refcount_disposable.hpp:110-111", "src/rpp/rpp/disposables/disposable_wrapper.hpp:131-143", "src/rpp/rpp/operators/concat.hpp:121"]}
{"id": "C72", "title": "asio strand scheduler: not before the due time, in order, one at a time; nested tasks exact", "statement": "Tasks scheduled on the asio strand scheduler never start before the time asked for; they run one at a time (also across worker threads of the io_context); tasks become ready in the order of the calls without delay and of the expiry of their timers and are started in that order; a task whose handler is disposed is not started and nothing happens to it any more; when nothing can happen however much time passes, every task has ended or was given up because of a disposed handler; a task runs at most once per call and per repetition it asked for. Tasks scheduled with current_thread inside a strand task report an exception to their handler exactly once and are repeated at exactly the first time plus the sum of the intervals. Refuted for tasks of the strand worker itself: their exceptions are never reported to the handler (they leave through io_context::run), and delay_from_this_timepoint counts from the end of the run, so the period drifts without bound.", "quantifier": "all programs of schedule calls from tasks, error handlers and other threads, all interleavings with the clock, timers and the io_context, any number of repetitions", "why_tests_cant": "a test sees one timing; the drift is one run time per period and the lost exception needs a throwing task on a foreign event loop", "anchors": ["src/extensions/rppasio/rppasio/schedulers/strand.hpp:31-189", "src/rpp/rpp/schedulers/fwd.hpp:45-65", "src/rpp/rpp/schedulers/details/queue.hpp:96-109"]}
{"id": "C73", "title": "Qt main thread scheduler: whole milliseconds are waited, one at a time, no application means on_error", "statement": "Tasks scheduled on the Qt main thread scheduler run one at a time; a run comes not before the whole milliseconds of the delay asked for have passed since the request, so with delays of whole milliseconds never early, otherwise less than 1 ms early (with delay_from_this_timepoint less than 1 ms per run); calls with a delay below 1 ms are served in the order of the calls; a task whose handler is disposed is not started and nothing happens to it any more; when nothing can happen however much time passes, every task has ended, was given up or its handler got an error; at most one run per request. Without a QApplication every call reports on_error to its handler at once, exactly once, and nothing runs; with one, on_error is never called. Refuted: that no run is early (period 10 ms and a run time of 1 ns make the n-th run n times 0.999999 ms early, without bound), and that the exception of a task reaches its handler.", "quantifier": "all programs of schedule calls from tasks, error handlers and other threads, all interleavings with the clock and the Qt event loop, every number n of repetitions", "why_tests_cant": "tests cannot observe sub-millisecond truncation reliably, and the accumulated error needs long runs", "anchors": ["src/extensions/rppqt/rppqt/schedulers/main_thread.hpp:31-84", "src/rpp/rpp/schedulers/details/worker.hpp:45-64", "src/rpp/rpp/schedulers/fwd.hpp:45-65"]}
{"id": "C74", "title": "A type-erased observer and all its copies behave as the observer itself", "statement": "An observer converted with as_dynamic, copied any number of times, converted again, or put between other observers: whatever sequence of on_next, on_error, on_completed, set_upstream and dispose is made through whichever of the copies, the callbacks fired, the disposables released and is_disposed() of every copy are those of the one original observer on which all these calls are made. Callbacks reached through any number of different handles follow the grammar on_next* (on_error | on_completed)?.", "quantifier": "for all callbacks (disposing, throwing), all numbers of copies and nestings of conversions, all sequences of calls distributed over them in any way", "why_tests_cant": "Tests subscribe one dynamic observer once; the number of copies and the distribution of the calls over them is unbounded.", "anchors": ["src/rpp/rpp/observers/dynamic_observer.hpp", "src/rpp/rpp/observers/observer.hpp", "src/rpp/rpp/observables/dynamic_observable.hpp"]}
{"id": "C75", "title": "Subscriptions with a disposable", "statement": "subscribe(disposable, ...) and subscribe_with_disposable: with a disposable that is already disposed or empty the source is not started. Once the disposable is disposed nothing pushed through this subscription reaches the callbacks what the source handed over is disposed and what it hands over later is disposed at once; until then everything pushed is delivered, followed by on_error if on_next throws. on_error or on_completed pushed through the subscription dispose its disposable; once the callbacks got one of them everything handed over has been disposed, and nothing is disposed while the subscription it came through is alive. The disposable is disposed only if somebody asks for it or the callbacks got their end. For callbacks (not an observer object) the disposable is disposed as soon as they got their end, including after a throwing on_next, and disposing it in on_next silences the subscription at once. Refuted for observer objects: after a throwing on_next the disposable stays undisposed; an on_next that disposes it and throws is followed by on_error; and two overloads start the source for an observer that is already disposed.", "quantifier": "for all callbacks, disposables, nestings of observers and numbers of subscriptions sharing one observer, all call sequences, all overloads of subscribe", "why_tests_cant": "Tests try one overload with one or two events; the claims quantify over all sequences and over what the callbacks dispose and throw.", "anchors": ["src/rpp/rpp/observables/observable.hpp", "src/rpp/rpp/operators/subscribe.hpp", "src/rpp/rpp/observers/observer.hpp", "src/rpp/rpp/observers/lambda_observer.hpp", "src/rpp/rpp/observers/fwd.hpp"]}
{"id": "C76", "title": "timer fires once, at its time", "statement": "The observer of timer(t), directly or behind subscribe_on: the schedulable runs at most once, due at t. Before that run the observer has got nothing; with it it gets the value 0 followed by on_completed, nothing afterwards. An observer disposed before gets nothing at all, at whatever moment the disposal happens. When the worker has nothing left to do and nobody disposed the observer it has got both. More generally interval | take(m) runs at most m times, the i-th run due i periods after the first, and the observer has after n runs exactly the first n values, and the completion together with the m-th.", "quantifier": "for all times, all numbers of disposing threads, all interleavings of their dispose() with the steps of the worker, all observers (that end or dispose themselves at any moment)", "why_tests_cant": "Tests run the timer once on a test scheduler; the disposal can hit between any two steps.", "anchors": ["src/rpp/rpp/sources/timer.hpp", "src/rpp/rpp/sources/interval.hpp", "src/rpp/rpp/operators/take.hpp"]}
{"id": "C77", "title": "flat_map delivers everything of every returned observable", "statement": "flat_map(f): whatever the interleaving of the source and of the observables returned by f, the observer gets what merge makes of all their events, each taking effect between the beginning and the end of its call. If the source completes and every returned observable completes, then by the time all calls have returned the observer has got all values of all of them, those of each one in order, and then on_completed exactly once. If the source or one of the returned observables fails, or f throws, it gets values followed by one of these errors and no on_completed. Likewise for merge of any number of completing observables.", "quantifier": "for all sources, functions (returning any observables or throwing), numbers of values, and all interleavings of the calls", "why_tests_cant": "The interleavings of an unbounded number of concurrent inner observables cannot be enumerated.", "anchors": ["src/rpp/rpp/operators/flat_map.hpp", "src/rpp/rpp/operators/merge.hpp", "src/rpp/rpp/operators/map.hpp"]}
{"id": "C78", "title": "Pushing into a source from inside the subscriber's callback", "statement": "For map, filter, skip, take, take_while, distinct, distinct_until_changed, scan, reduce, first, element_at, last, take_last, buffer, window, group_by and throttle: if the subscriber's on_next callback calls on_next/on_error/on_completed of the operator's source again (to any depth, on the same thread), what is delivered is what the operator owes for the pushed events taken in the order in which the calls began: nothing is missing, added or reordered, and after disposal nothing more is delivered.", "quantifier": "every operator listed, every user function, every nesting of pushes inside callbacks, every moment of disposal", "why_tests_cant": "a test nests one or two pushes; the claim is about arbitrarily deep nesting with every mixture of values, terminal events and disposal", "anchors": ["src/rpp/rpp/operators/take.hpp:30-41", "src/rpp/rpp/operators/first.hpp:28-37", "src/rpp/rpp/operators/element_at.hpp:33-58", "src/rpp/rpp/operators/buffer.hpp:38-59", "src/rpp/rpp/operators/throttle.hpp:33-42", "src/rpp/rpp/operators/window.hpp:49-86", "src/rpp/rpp/operators/group_by.hpp:88-129", "src/rpp/rpp/observers/observer.hpp:84-144"]}
{"id": "C79", "title": "Pushing into a publish_subject from inside its subscribers' callbacks", "statement": "If on_next callbacks of a publish_subject's subscribers push into the same subject (to any depth, on the same thread): when no callback is running, every subscriber that was not disposed has got every pushed value exactly once; every subscriber gets the events in the order in which they were pushed, up to the first terminal event; the terminal event reaches everyone when it is pushed; nobody gets an event after a terminal one or after its disposal.", "quantifier": "every set of subscribers, every nesting of pushes inside callbacks, every moment of disposal of any subscriber", "why_tests_cant": "a test nests one or two pushes with two subscribers; the claim is about arbitrarily deep nesting and any number of subscribers", "anchors": ["src/rpp/rpp/subjects/details/subject_state.hpp:112-151", "src/rpp/rpp/subjects/publish_subject.hpp:24-39"]}
{"id": "C80", "title": "from_signal: signals of a Qt object as an observable", "statement": "A subscriber of from_signal(object, signal) gets exactly the signals emitted between its subscription and its disposal or the destruction of the object, in order; at the destruction it gets on_completed and nothing more; who subscribes after the destruction gets on_completed at once.", "quantifier": "every history of signals, subscriptions, disposals and the destruction of the object, every subscriber", "why_tests_cant": "a test plays a few signals; the claim is about every history", "anchors": ["src/extensions/rppqt/rppqt/sources/from_signal.hpp:22-84"]}
{"id": "C81", "title": "Synchronous sources combined on one thread take turns", "statement": "When merge_with, zip, combine_latest or with_latest_from is subscribed to several from/just sources on the default scheduler: the sources push one value each in turn, in the order of subscription, until they are used up; no live source is ever ahead of another unfinished one by more than one value; subscribe returns after everything has been pushed. So merge_with delivers the values interleaved round by round and then completes, zip delivers the rows and completes, with_latest_from pairs the r-th value of the main source with the r-th (or last) values of the others.", "quantifier": "every number of sources and lengths (empty ones included), every behaviour of the clock, every moment of unsubscription of any source, every downstream observer", "why_tests_cant": "a test fixes two or three short sources; the claim is about every number and length and about unsubscription at every moment", "anchors": ["src/rpp/rpp/sources/from.hpp:47-122", "src/rpp/rpp/schedulers/current_thread.hpp:87-215", "src/rpp/rpp/operators/merge.hpp:165-190", "src/rpp/rpp/operators/details/combining_strategy.hpp:96-120", "src/rpp/rpp/observables/details/chain_strategy.hpp:46-65"]}
{"id": "C82", "title": "Operators with several sources stacked on each other: no deadlock, serial calls, results compose", "statement": "When merge_with, zip, combine_latest, with_latest_from and take_until are applied to results of each other, to any depth and with chains of single-source operators in between, and every source pushes on a thread of its own: no interleaving of the threads blocks and none goes on forever, although a thread that emits holds the mutexes of several operators at a time; the calls on the observer between two operators never overlap and keep the grammar (values, then at most one terminal event); at the end the subscriber has been given a result of the expression, that is, every operator has applied its meaning to the results of its sources in some order that keeps each of them. Merges of merges deliver every value of every source exactly once, in the order of its source, and then complete.", "quantifier": "every expression (depth, width, operators, chains), every event sequence of every source, every interleaving, every subscriber, every moment at which a disposal becomes visible", "why_tests_cant": "a test runs a few schedules of one or two nested operators; lock orders and lost or overlapping calls depend on the interleaving and on the depth", "anchors": ["src/rpp/rpp/utils/utils.hpp:259-311", "src/rpp/rpp/operators/merge.hpp:39-190", "src/rpp/rpp/operators/zip.hpp:40-75", "src/rpp/rpp/operators/combine_latest.hpp:40-75", "src/rpp/rpp/operators/with_latest_from.hpp:60-167", "src/rpp/rpp/operators/take_until.hpp:45-149", "src/rpp/rpp/observables/details/chain_strategy.hpp:46-65"]}
{"id": "C83", "title": "One subject feeding several branches that an operator combines again", "statement": "When branches of one subject (each mapping the values with its own function) are combined by one operator and the subject is pushed on one thread: merge_with delivers for every pushed value the values of all branches, in the order of the branches; zip pairs every value with itself, one result per value; with_latest_from samples the arguments with the value just pushed, not with the one before; combine_latest with n arguments gives one result for the first value and n + 1 results for every later one, the k-th of them with the new value in the first k arguments only and the old one elsewhere, and the last of them consistent. The subject's terminal event reaches the subscriber exactly once, after everything else.", "quantifier": "every number of branches, all branch functions and total selectors, every sequence of pushed values with or without terminal event, every subscriber", "why_tests_cant": "tests combine independent sources; a shared source makes the result depend on the order in which the operator subscribes to its arguments, for every number of them", "anchors": ["src/rpp/rpp/subjects/details/subject_state.hpp:112-151", "src/rpp/rpp/operators/details/combining_strategy.hpp:96-120", "src/rpp/rpp/operators/with_latest_from.hpp:117-167", "src/rpp/rpp/operators/merge.hpp:165-190", "src/rpp/rpp/observables/details/chain_strategy.hpp:46-65"]}
{"id": "C84", "title": "A stream split by group_by or window and merged again", "statement": "When group_by or window splits a stream on one thread, a chain of single-source operators is put on every part and merge (flat_map) puts the parts together again: every value goes through the chain of its own part only and whatever that chain passes on reaches the subscriber at once, before the next value; the completion of a part is not seen; an error of a part (an operator of its chain) ends the result; when the source ends, the groups end in the order of their keys, the open window ends, what their chains deliver then (last, reduce, buffer) still comes, and then the result ends the same way as the source. For window, switch_on_next gives the same as merge. Consequences: with nothing put on the parts the result is the source itself, value by value, for every key function and window size; take(n) on every group gives the first n values of every key in the order of the source; reduce on every group gives one total per key, in the order of the keys, then the completion.", "quantifier": "for all chains of operators, key functions, window sizes, sources (any values, with or without an end) and subscribers, including one that unsubscribes", "why_tests_cant": "Tests check group_by and window by collecting the groups; whether splitting and merging loses, repeats or reorders values for every key function and chain is not a finite check.", "anchors": ["src/rpp/rpp/operators/group_by.hpp:94-137", "src/rpp/rpp/operators/window.hpp:53-89", "src/rpp/rpp/operators/merge.hpp:39-135", "src/rpp/rpp/operators/switch_on_next.hpp:40-130", "src/rpp/rpp/operators/flat_map.hpp:22-40"]}
{"id": "C85", "title": "Composite disposables put into each other", "statement": "However composite disposables are put into each other (a child in several parents, parents in a cycle, a composite into itself) and however many threads add, remove, clear and dispose at once: no disposable is disposed twice; whatever was put into a composite that has been disposed, before, during or after its disposal, and is not removed from it, is disposed when all calls have returned, and so is whatever a thread put into a composite and clears afterwards; nothing is disposed without a reason, that is a dispose() or clear() of something that leads to it; without remove and clear the set of disposed ones is exactly what the dispose() calls lead to, the same in every interleaving; unless a composite that is cleared leads back to itself some call can always go on, and all calls end after a bounded number of steps. A cleared composite that leads back to itself waits for itself for ever.", "quantifier": "for all numbers of disposables and threads, all programs of add/remove/clear/dispose calls, all interleavings", "why_tests_cant": "Tests dispose one composite with a few children; double disposal, lost children and waiting cycles depend on the graph and on the interleaving.", "anchors": ["src/rpp/rpp/disposables/composite_disposable.hpp:29-166", "src/rpp/rpp/disposables/details/container.hpp:20-58", "src/rpp/rpp/disposables/details/base_disposable.hpp:36-41"]}
{"id": "C86", "title": "Pipelines that change threads on the way", "statement": "When operator chains are joined by any number of delay and observe_on hops, each with its own delay and with a worker thread of its own, one shared with other hops, or none, then under every schedule, clock and disposal: the subscriber's calls are a beginning of what the same operators show without the hops; calls never overlap although they may come from different threads; none begins after the subscriber was disposed; every run comes to rest; and at rest an undisposed subscriber has been called with all of it and is in the state in which the same operators leave it without the hops. (No error arriving at an observe_on, see C44.)", "quantifier": "for all chains, numbers of hops, delays, assignments of hops to workers, sources, subscribers, clocks, disposals and interleavings", "why_tests_cant": "Tests use one hop and one worker; whether two hops that share a worker, or hand over between workers, can turn events around or lose the last one depends on when each queue runs empty.", "anchors": ["src/rpp/rpp/operators/delay.hpp:37-162", "src/rpp/rpp/operators/observe_on.hpp:41-45", "src/rpp/rpp/observables/details/chain_strategy.hpp:46-65"]}
{"id": "C87", "title": "Subscribing to a subject while it emits on another thread", "statement": "An observer subscribed to a subject (publish, behavior, replay) by one thread while other threads emit into the subject, complete it or dispose observers: once the observer has ended (it took all the values it wanted, was completed or was disposed) and all calls have returned, the subject no longer holds it, and the observer's upstreams are never accessed by two threads at the same time. Holds for observers subscribed with a disposable; refuted without one: an observer that ends between the moment it enters the subject's list and the moment it is given its upstream is kept by the subject, and its container of upstreams is written and walked at the same time.", "quantifier": "every number of threads, every program of subscriptions, emissions, completions and disposals, every moment at which observers end, every interleaving", "why_tests_cant": "The window is a few instructions between leaving the subject's mutex and storing the disposable in the observer; a test never hits it, and the leak is not visible in the values delivered.", "anchors": ["src/rpp/rpp/subjects/details/subject_state.hpp", "src/rpp/rpp/observers/observer.hpp", "src/rpp/rpp/observers/details/disposable_strategy.hpp"]}
{"id": "C88", "title": "Connecting, disconnecting and connecting again a connectable observable", "statement": "A connectable observable is connected by several threads, its connections are disposed and it is connected again, while the sources of old and new connections emit on threads of their own. The source is subscribed at most once per connection and only when every earlier connection has been disposed; the subscribers see, of every connection, a prefix of what its source emits, one call at a time, at most one event that begins after the connection was disposed, everything if the connection is not disposed and no terminal event occurs, and nothing after a terminal event. The source's subscription is disposed at most once, never while the connection is in use, and exactly once when the connection was disposed or a terminal event was delivered and all threads have finished. Refuted: that calls of two connections do not overlap at a subscriber; that a disposed connection cannot end the new one; that the subject does not keep an entry per past connection.", "quantifier": "every number of users, every program of connects and disposals, every number of sources with any events, every interleaving", "why_tests_cant": "Needs a disposal and a reconnect within the time of one callback; a growing internal list is not visible in the values delivered.", "anchors": ["src/rpp/rpp/observables/connectable_observable.hpp", "src/rpp/rpp/subjects/publish_subject.hpp", "src/rpp/rpp/observers/observer.hpp", "src/rpp/rpp/subjects/details/subject_state.hpp"]}
