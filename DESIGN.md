# Formal model of ReactivePlusPlus in Rocq 8.16.1 - design

The source in `/repo` (victimsnino/ReactivePlusPlus, pinned) was read as text; it
was not built or run.  Paths below are relative to `/repo/src/rpp/rpp` unless they
start with `src/` or `docs/`.

## 1. Layout

* `properties.jsonl`  - the properties in English (C01 ...).
* `rocq/theories/*.v` - model, specification, proofs, theorems.
  * `Base.v`          - events, results of user functions, small list facts.
  * `<Area>Model.v`   - transcription of the C++ functions; every definition cites
                        file and lines; no proofs about properties.
  * `<Area>Spec.v`    - the independent meaning of the properties (list functions,
                        predicates on histories); does not import the model.
  * `<Area>Proofs.v`  - invariants, simulations, lemmas.
  * `<Area>Props.v`   - only final theorems (`Theorem Cxx_... . exact ...`), each with
                        `Print Assumptions` and a non-trivial `Example`.
* `MANIFEST.json`     - property -> status and theorem names.
* `seeded/LOG.jsonl`  - mutation log (wrong programs tried against the theorems).

## 2. Modelling decisions

* **Events.** `Next v | Err e | Done`; exceptions are opaque numbers.  Values are of
  arbitrary type.  Moves/copies of values are not modelled, except where the code
  reads a moved-from object (then it is a distinct outcome).
* **User functions** (map/filter/... callables) are pure but may throw:
  `A -> Ok b | Throw e`.  Observer callbacks are functions of the whole history of
  what was delivered and may continue, throw, or dispose the own subscription.
* **Observers as machines.** `observer_impl<Strategy, Disposable>` is a state with
  `step : event -> state`, `disposed : bool`, `kill` (external dispose).  A lifted
  operator is a machine transformer polymorphic in an *arbitrary lawful downstream
  machine*, written in the order of the C++ statements.  Theorems quantify over all
  lawful downstream machines, therefore over chains, unsubscribing and throwing
  subscribers.
* **Multi-source operators** hold a mutex around every event, so a history is an
  arbitrary list of (source, event) pairs: any interleaving.
* **Concurrency.** Where atomics / several critical sections matter, a small-step
  relation with per-thread program counters (sequential consistency, one shared
  access per step) is used and theorems are invariants of all reachable states.
* **Scheduler queue** is modelled at pointer level (heap of nodes with `m_next`).
* **Clock**: natural numbers; the clock is an arbitrary non-decreasing oracle.
* **Undefined behaviour / deadlock / non-termination** are explicit outcomes.

## 3. Trusted base

Coq 8.16.1 kernel (`coqc`; `coqchk` at the end), the transcription in the
`*Model.v` files, the English-to-`*Spec.v` reading.  `Print Assumptions` output is
listed per theorem in section 6.

## 4. Not modelled

Memory model weaker than SC; allocation failure; template/overload resolution;
`noexcept` -> `std::terminate` when a user's on_error/on_completed callback throws;
copy/move constructors of values throwing; OS timing precision; the
foreign event loops under the Qt and asio schedulers (their guarantees are assumed).  The full list of source files that no
definition cites is in section 6.4.

## 5. Plan per property

| id | what is modelled | how it is proved |
|----|------------------|------------------|
| C01 | observer_impl + local strategy, callbacks as history functions | invariant over all call sequences |
| C02 | same | invariant + characterisation of the log suffix |
| C03 | same with upstream list, fixed capacity variant | invariant; refutation for overflow |
| C04 | lawfulness of each lifted operator | closure of laws under composition, induction over chains |
| C05 | re-entrant observer model (callback programs) | refutation by witness; partial: without re-entrancy |
| C06, C07, C09 | composite_disposable small-step CAS machine | invariant over reachable states; ghost linearization |
| C08 | base_disposable exchange | invariant |
| C10 | composite with re-entrant children (clear in Edit state) | refutation; partial: children not touching composite |
| C11 | refcount small-step | invariant relating counter and live references |
| C12 | static container over raw slots | refinement to list |
| C13 | pointer-level queue | refinement to stable sorted list |
| C14, C15, C16, C18, C20 | current_thread / immediate / run_loop / test_scheduler execution functions over task trees | trace invariants |
| C17 | repeat loops of schedulers | induction on k; current_thread refuted |
| C19 | test_scheduler drain | trace characterisation |
| C21 | thread_pool index | arithmetic |
| C22 | new_thread loop small-step | invariant; has_fresh_data part refuted |
| C23 | run_loop small-step | invariant |
| C24-C31 | single-source operators | refinement to list functions for all downstreams |
| C32-C38, C56 | multi-source operators over interleaved histories | refinement to history functions; concat race refuted at two threads |
| C39 | non-recursive mutex | lock model, refutation |
| C40-C42 | retry, retry_when, on_error_resume_next, source concat: drain loops | induction on attempts; interleaving model of in-drain flag |
| C43, C44 | delay/observe_on two-thread queue model | invariant; observe_on error path refuted |
| C45, C46 | debounce | refinement on timestamped histories; deadlock refuted |
| C47 | timeout | refinement; race refuted |
| C48-C52 | subject_state and subjects | refinement over histories; iterator invalidation, snapshot races refuted |
| C53 | connectable / ref_count | invariant over histories |
| C54 | gRPC base_writer | invariant; error status loss refuted |
| C55 | from_iterable / interval | induction |
| C57 | new_thread wait on the condition variable | wait model; refuted, partial |
| C58 | zip / combine_latest with a throwing selector | histories; refuted for overlapping calls |
| C59 | serialized_subject, re-entrant | lock model, refutation |
| C60, C61 | windows after their end, window_toggle on several threads | general lemma about dead subjects; interleaving model |
| C62, C63 | gRPC finishing and reading | interleaving model of the reactors, invariants; cancellation refuted |
| C64 | as_blocking: mutex, condition variable, strategy | interleaving model, invariants, progress measure |
| C65, C66 | the static choice of the upstream container and of the flag (disposable strategies) | induction over chains of operators |
| C67 | thread_pool index with several threads | interleaving model |
| C68, C69 | disposables handed over by the sources of merge, take_until, with_latest_from, zip, combine_latest, switch_on_next, concat | micro-step interleaving model, invariants |
| C72, C73 | asio strand, Qt main thread schedulers | simulation by an abstract event loop, trace invariants |
| C74, C75 | layers of observers: dynamic observers, disposables given to subscribe | unrolling of the layers, refinement to the single observer of C01, invariants |
| C76 | timer, interval with take | invariant over the steps of the source with disposing threads (C55 model) |
| C77 | flat_map (map, merge) | linearization of C32, induction over histories |
| C78 | operators driven re-entrantly (methods as programs that stop at the downstream call) | simulation of every nested run by the sequential one; direct invariant for take; witnesses for the failures |
| C79 | publish_subject with nested emissions (stack of running loops) | invariant: received plus still owed is a permutation of pushed; order invariant for the first subscriber |
| C80 | from_signal | reduction to the histories of C48 |
| C81 | from sources as tasks of the current_thread machine, subscribed under the queue guard | ring invariant of the queue; termination measure; histories of the multi-source operators |
| C82 | expressions of multi-source operators as one concurrent program: a call into the operator below is made inside the critical section of the operator above | every operator's part of an execution is an execution of that operator alone (projection); lexicographic termination measure by depth; structural induction over expressions |
| C83 | a subject whose subscribers are the branches of one operator: the calls in the order of subscription (arguments before main; merge_with: main first) | induction over the pushed values; the history of a partial round determines latest values, rows and completions |
| C84 | the scripts of group_by and window (C29, C30) as calls on the observers of merge or switch_on_next, the chain of every part as a machine ending in a record | invariant: record of the j-th part = calls of source j; the script of the operators is followed value by value; every chain ends when its source does |
| C85 | any number of composites with numbered children, one shared access per step (generalises the single composite of C01-C06) | invariants: one holder of every editing state, disposed ones have no children left or somebody is at it, every added child is somewhere; progress by following who waits for whom among the cleared ones; a measure over children and pending calls |
| C86 | any number of chains with a delay/observe_on queue between each two, tasks on any number of workers | one task per hop at a time (counting invariant); what lies in the histories, queues and calls in flight adds up to what the chain before has shown; beginnings go through chains; at rest everything in between is empty; a weighted sum over events and tasks falls with every step |
| C87 | a subject's list, observers with either kind of disposable strategy, any threads | invariant: an ended observer still in the list has its check, hand-over, sweep or removal ahead, or the trace shows the gap |
| C88 | connect()/dispose() by any threads, sources of several connections on their own threads | invariants: at most the stored connection is alive; frees = flag; calls of a source are at one place; terminal flag = terminal in the trace |
| C70, C71 | disposable_wrapper ownership, add_ref modes | invariants over all programs, termination measure |

## 6. Results

`Print Assumptions` follows every theorem below in its `*Props.v` file.  For every single
one it prints `Closed under the global context`: no axiom is used.  (Checking the loaded
libraries as a whole, `coqchk -o` lists seven axioms `Coq.ssr.ssrunder.Under_rel.*`; they
belong to the standard library's ssreflect plugin, are loaded transitively, and no
theorem depends on them.)

### 6.1 Theorems per property

| id | status | theorems | remark |
|----|--------|----------|--------|
| C01 Observer obeys the on_next* (on_error|on_completed)? grammar | proved | C01_grammar, C01_nothing_after_end, C01_values_in_order, C01_exact_delivery, C01_dispose_inside, C01_is_disposed |  |
| C02 An exception thrown by an on_next callback becomes exactly one on_error | proved | C02_throw_becomes_one_error |  |
| C03 Upstream resources are released once the observer terminates or is disposed | partial | C03_all_released, C03_released_iff, C03_not_released_early, C03_fixed_capacity_partial, C03_fixed_capacity_refuted | full claim refuted for observers with a fixed upstream capacity (set_upstream throws and the disposable is not released); proved for unlimited capacity |
| C04 Operator chains preserve the grammar and stop upstream work | proved | C04_chain, C04_chain_grammar, C04_chain_dead, C04_chain_ends, C04_chain_user |  |
| C05 Re-entrant calls during a terminal callback | partial | C05_reentrant_grammar_partial, C05_reentrant_terminal_refuted | claim is false: re-entrant calls made from a terminal callback fire further callbacks; partial: grammar holds without re-entrancy from terminal callbacks |
| C06 Composite disposable: nothing added survives a dispose, under every interleaving | proved | C06_nothing_survives, C06_no_premature |  |
| C07 Composite disposable: adding to an already disposed one disposes the child at once | proved | C07_late_add, C07_disposed_forever, C07_no_reference_kept |  |
| C08 A disposable's action runs exactly once | proved | C08_at_most_once, C08_exactly_once, C08_second_caller_may_return_first, C08_returned_means_ran | C08_second_caller_may_return_first is a witness that dispose() returning to a second caller does not mean the action has run |
| C09 Composite disposable: mutual exclusion and absence of lost children | proved | C09_linearizable, C09_mutual_exclusion, C09_only_those_write |  |
| C10 Composite clear() must be callable when a child's disposal touches the same composite | partial | C10_clear_reentrancy_refuted, C10_never_stuck_partial, C10_terminates_partial | claim is false: clear() disposes children while holding the Edit state, so a child whose disposal touches the same composite spins forever; partial: no deadlock when children do not touch the composite or clear is not used; termination for passive children |
| C11 Reference-counted disposable disposes exactly when the last reference is gone | proved | C11_not_early, C11_exactly_when, C11_references_follow, C11_late_refs_empty | parent composite operations taken as atomic (C09); counter overflow and object lifetime not modelled |
| C12 Fixed-capacity disposable container behaves as a bounded list | proved | C12_bounded_list, C12_move_to_fresh, C12_move_to_used_is_ub | C12_move_to_used_is_ub records an extra finding: move assignment onto a non-empty container constructs over living objects |
| C13 Scheduled tasks leave the queue in due-time order, ties in submission order | proved | C13_queue_order, C13_first_min_meaning |  |
| C14 No task runs before its due time | partial | C14_loops_not_before_due, C14_not_before_due_refuted, C14_not_before_due_partial | refuted for current_thread: a periodic task run directly by drain_queue (current_thread.hpp:119-134) waits relative to its stored time point only once, then runs early; partial: first starts and re-emplaced runs are never before due on current_thread/immediate; proved without exception for new_thread, run_loop and test_scheduler (C14_loops_*) |
| C15 current_thread trampolines: nested scheduling never runs inside the scheduling task | proved | C15_trampolining |  |
| C16 current_thread runs tasks in (due time, submission) order | proved | C16_queue_order, C16_nondecreasing |  |
| C17 Periodic tasks keep their period without drift | partial | C17_loops_no_drift, C17_loops_period, C17_period_refuted, C17_period_partial | refuted for current_thread (same drain_queue loop: the stored time point is not updated, so the k-th run may be at t+d); partial: immediate scheduler and re-emplaced tasks keep the period; proved without exception for new_thread, run_loop and test_scheduler (C17_loops_*) |
| C18 Tasks of a disposed subscriber do not run | proved | C18_loops_disposed, C18_disposed_tasks_do_not_run, C18_disposed_while_sleeping_still_runs, C18_disposed_before_due_immediate | C18_disposed_while_sleeping_still_runs is a witness that a task disposed by another thread during drain_queue's sleep runs once more (it was picked before) |
| C19 test_scheduler advances virtual time exactly | partial | C19_runs_at_due_time_refuted, C19_test_scheduler_partial | refuted: time_advance moves the clock first, so tasks run at now+d and not at their own due times; everything else (clock, order, exactly the due tasks, nested scheduling) is proved |
| C20 An exception in a scheduled task reaches the handler once and stops the repetition | proved | C20_loops_exception, C20_exceptions, C20_error_once |  |
| C21 thread_pool distributes workers round robin | partial | C21_round_robin_partial, C21_round_robin_refuted | proved for the first 2^64 workers and for thread counts dividing 2^64; refuted for the wrap-around of m_index (three threads) |
| C22 new_thread worker executes its tasks sequentially and before it is destroyed | partial | C22_order_refuted, C22_starvation_refuted, C22_new_thread_partial, C22_terminates | order refuted: a zero-delay repetition runs again without looking at the queue when the waiting task came from current_thread inside the loop (has_fresh_data not set), without bound (C22_starvation_refuted); sequential execution, order of picks, completeness at exit and absence of lost wake-ups proved |
| C23 run_loop dispatches each submitted task once in order and can always be stopped | proved | C23_run_loop, C23_no_lost_wakeup, C23_stopped | C23_second_waiter_stays is a witness that disposing (only reachable from the destructor) wakes one of two blocked dispatch calls |
| C24 map / filter / tap / finally semantics | proved | C24_map, C24_filter, C24_tap_passes, C24_tap_callbacks, C24_map_total, C24_filter_total, C24_finally_once |  |
| C25 take / skip / element_at / first / last / take_last / take_while semantics | partial | C25_take, C25_skip, C25_element_at, C25_first, C25_last, C25_take_while, C25_take_last, C25_take_last_any_capacity, C25_take_last_vector_bool_refuted | proved for containers whose reserve(n) gives capacity n; refuted for vector<bool> take_last |
| C26 distinct / distinct_until_changed semantics | proved | C26_distinct, C26_first_occurrences, C26_distinct_until_changed |  |
| C27 scan / reduce semantics | proved | C27_scan, C27_scan_no_seed, C27_reduce, C27_reduce_no_seed, C27_scan_is_fold, C27_reduce_is_fold |  |
| C28 buffer semantics | partial | C28_buffer, C28_buffer_unique, C28_vector_bool_refuted | proved for containers whose reserve(n) gives capacity n; refuted for vector<bool> |
| C29 window semantics | proved | C29_window | For every window size, every history of source events, subscriptions, unsubscriptions and drops, one thread; observers do not subscribe in callbacks of other windows. |
| C30 group_by semantics | proved | C30_group_by | Keys are numbers; selectors may throw; one thread. |
| C31 throttle semantics | proved | C31_throttle |  |
| C32 merge delivers every value of every source and completes last | proved | C32_merge_complete, C32_merge, C32_merge_values | every interleaving, every downstream; the release of the inner observables' disposables is C68 |
| C33 concat subscribes sources one at a time in order | partial | C33_concat_partial, C33_concat_sequential, C33_concat_race_refuted | Proved for every interleaving in which no observable is pushed after the drain found the queue empty (ghost c_late), and for all calls that do not overlap. The full claim is false: C33_concat_race_refuted exhibits a schedule in which a pushed observable is stranded and later delivered out of order (finding). |
| C34 switch_on_next follows only the latest inner observable | partial | C34_switch_partial, C34_switch_accepts, C34_switch_concurrent_refuted | calls that do not overlap: proved; overlapping calls: refuted (an inner passes is_disposed() before the switch and delivers afterwards, switch_on_next.hpp:57-61, observer.hpp:84-95) |
| C35 zip pairs the i-th values | proved | C35_zip, C35_zip_values, C35_zip_sequential | every interleaving for total selectors; throwing selectors for non-overlapping calls (C35_zip_sequential); see C58 for overlapping ones |
| C36 combine_latest combines the most recent values | proved | C36_combine_latest, C36_combine_latest_sequential | every interleaving for total selectors; throwing selectors for non-overlapping calls; see C58 for overlapping ones |
| C37 with_latest_from samples the other sources | proved | C37_with_latest_from, C37_with_latest_from_sequential | every interleaving for total selectors; throwing selectors for non-overlapping calls |
| C38 take_until stops at the first notifier event | proved | C38_take_until, C38_take_until_output | every interleaving; release of the two subscriptions is C68 |
| C39 Combining operators survive re-entrant emission | partial | C39_no_deadlock_partial, C39_merge_reentrant_refuted, C39_zip_reentrant_refuted, C39_combine_latest_reentrant_refuted, C39_take_until_reentrant_refuted, C39_switch_reentrant_refuted | without re-entrant emission nothing blocks (C39_no_deadlock_partial); with it, merge, zip, combine_latest, take_until and switch_on_next deadlock on their own non-recursive mutex |
| C40 retry(n) resubscribes at most n times | proved | C40_retry, C40_all_fail | Any number of attempts, any split between subscribe() and another thread, any disposal moment. Count is a natural number; a source that throws from subscribe() must not also have started a thread. |
| C41 retry_when / on_error_resume_next semantics | proved | C41_retry_when, C41_resume_next | retry_when in all interleavings; on_error_resume_next on the sequence of source and fallback events. |
| C42 repeat / start_with / source concat semantics | proved | C42_concat, C42_all, C42_repeat | repeat and start_with are source::concat on their container (repeat.hpp:29, start_with.hpp:36,57); containers with throwing iterators left out. |
| C43 delay keeps order and loses nothing | proved | C43_delay | Any number of worker threads, clock threads and disposals; callbacks of the downstream observer do not throw into the worker. |
| C44 observe_on delivers serially | partial | C44_no_error_partial, C44_order, C44_overlap_refuted | Order for all sources; serial delivery for sources that do not fail; with a failing source false: on_error runs on the source's thread while the worker may be inside on_next (finding). |
| C45 debounce semantics | partial | C45_debounce, C45_exact, C45_lost_refuted | General theorem for late and for prompt timers, exact function of the timed events when the timer is prompt and nothing ties. Partial because the claim about the pending value at completion is false in a race: the timer thread may have taken the value and completes second (finding). |
| C46 debounce works with synchronous schedulers | partial | C46_never_refuted, C46_deadlock_refuted | False: emplace_safe holds m_mutex while schedule() runs the task, which locks it again; proved for every source and every run that nothing is shown after the first value. |
| C47 timeout semantics | partial | C47_single_thread_partial, C47_threads_partial, C47_moved_from_refuted | Everything when the timer task does not overlap the handling of a source event; with several threads everything except one race, in which a value reaches the moved-from observer (finding). |
| C48 publish_subject delivers to exactly the current subscribers | proved | C48_publish |  |
| C49 Subscribing to a subject from inside its own emission | partial | C49_unsubscribe_partial, C49_subscribe_refuted, C49_concurrent_subscribe_refuted | Proved for callbacks that unsubscribe or dispose (any history). Refuted for callbacks that subscribe and for subscription from another thread: emplace_back invalidates the deque iterators that on_next goes on using (finding). |
| C50 behavior_subject starts every subscriber with the latest value | partial | C50_behavior, C50_concurrent_partial, C50_gap_refuted, C50_duplicate_refuted | Full for histories without overlap. Concurrent: order, suffix and at most one duplicate proved (C50_concurrent_partial); 'no gap, no duplicate' refuted: reading/storing the value and entering/reading the list are separate critical sections (finding). |
| C51 replay_subject replays the buffered suffix | partial | C51_replay, C51_concurrent_partial, C51_gap_refuted, C51_duplicate_refuted | Full for histories without overlap (limit >= 1 as enforced by the constructor, times non-decreasing). Concurrent part as C50 (finding). |
| C52 serialized subjects never overlap callbacks | proved | C52_serialized | Mutual exclusion, linearizability and progress for any number of emitting threads; observers are subscribed beforehand. |
| C53 connectable / ref_count share one source subscription | partial | C53_history, C53_connect, C53_ref_count, C53_one_connection, C53_released, C53_connected_partial, C53_progress, C53_orphan_refuted | Every single-threaded history (C53_history, C53_connect, C53_ref_count) in full. ref_count under concurrent subscribe/unsubscribe: one connection at a time, all released at the end, no blocking, connected iff observed (partial: only if nobody subscribes between the counter reaching zero and the disposed flag); C53_orphan_refuted: such a subscriber is never connected. |
| C54 gRPC writer sends every value once, in order, one write at a time, and finishes last | partial | C54_writes, C54_error_partial, C54_complete, C54_error_refuted | Order, one write in flight, finish last, nothing lost: proved for every interleaving. Refuted part: if the source fails while writes are pending the call is finished with status OK (C54_error_refuted). |
| C55 from / just / interval sources | proved | C55_from, C55_from_all, C55_simple, C55_interval, C55_interval_now | just, from (iterable, callable), empty, never, error and interval, with or without subscribe_on, over any lawful downstream and any moment of unsubscription; disposal is one atomic step. |
| C56 window_toggle semantics | proved | C56_window_toggle | One thread (see C61 for several); closing observables that emit while being subscribed are modelled as emitting right afterwards. |
| C57 new_thread runs an earlier task submitted while it waits for a later one | partial | C57_wakes_for_earlier_refuted, C57_waits_for_some_due_partial | claim is false: wait_for keeps the deadline of the task that was first when it started waiting; partial: the wait ends at the due time of some waiting task |
| C58 A throwing selector ends zip and combine_latest at once | partial | C58_zip_throw_refuted, C58_combine_latest_throw_refuted, C58_throw_sequential | holds when calls do not overlap; refuted for overlapping calls of zip and combine_latest |
| C59 Emitting into a serialized subject from its own callback | partial | C59_reentrant_refuted | Refuted: m_serialized_mutex is a plain std::mutex, so the emitting thread waits for itself (finding). |
| C60 Late subscription to a closed window | partial | C60_late_refuted, C60_window_refuted, C60_toggle_refuted | False: the window's subject state is destroyed when the window closes, so a late observer hears nothing (general statement plus one run each for window and window_toggle). |
| C61 window_toggle under concurrency | partial | C61_source_partial, C61_overlap_refuted, C61_reentrant_refuted | Proved for source values on any number of threads; false as soon as a closing observable fires on another thread (overlap) or from a callback (self-deadlock). |
| C62 A gRPC call is finished at most once | partial | C62_once_partial, C62_once_refuted, C62_fail_refuted | Proved without cancellation; with OnCancel the call is finished twice (C62_once_refuted, C62_fail_refuted). |
| C63 gRPC reader: each value read is emitted before the next read, one emission at a time | partial | C63_reader_partial, C63_failed_read_is_last, C63_cancel_refuted | Proved for OnReadDone/OnDone in any number of threads; OnCancel of server reactors can overlap an emission (C63_cancel_refuted). |
| C64 A blocking subscription returns when, and only when, it is over | proved | C64_returns, C64_no_hang, C64_all, C64_late_calls, C64_late_call_refuted, C64_nested_refuted | Full statement for every interleaving (C64_returns, C64_no_hang, C64_all). Beside it C64_nested_refuted: inside a current-thread task the subscription hangs, because the emissions are queued behind the blocked task. C64_late_call_refuted: a callback whose thread had passed is_disposed() before the disposal may start after subscribe has returned; C64_late_calls bounds them. |
| C65 The statically chosen place for upstream disposables always suffices | proved | C65_capacity, C65_observer, C65_tight | Full statement by induction over all chains; C65_observer ties it to the observer model. |
| C66 The disposed flag is not accessed by two threads unless it is atomic | partial | C66_flag_race_refuted, C66_mode_partial | Refuted: just(..) \| observe_on(new_thread) \| take(1) (C66_flag_race_refuted). C66_mode_partial: exactly which observables use the non-atomic flag; freedom from races of the chains without delay/observe_on is not proved. |
| C67 thread_pool distributes workers evenly whoever creates them | partial | C67_in_bounds, C67_serial_partial, C67_shared_refuted | In bounds for every interleaving, round robin when one thread creates all workers; C67_shared_refuted: two threads get the same worker. |
| C68 Operators with several sources release what their sources handed over | proved | C68_all_released, C68_ended_source_released, C68_not_early | merge, take_until, with_latest_from, zip/combine_latest; switch_on_next and concat: see C69. User callbacks return normally. |
| C69 switch_on_next and concat release what their sources handed over | proved | C69_all_released, C69_ended_source_released, C69_replaced_released, C69_switch_not_early | switch_on_next and concat with their references; the early-release half is claimed (and proved) for switch_on_next only. Flag and count of a reference change in one step (C11 covers them apart); subscribe() of an inner observable does not throw. |
| C70 Disposables are disposed at the latest with their last owner, once, and for a reason | proved | C70_last_owner_disposes, C70_once, C70_reason, C70_asked_disposed, C70_children_disposed, C70_owned_alive, C70_source_kept, C70_reference_kept_alive, C70_settles | One thread; owner counts of std::shared_ptr as numbers. release() of the reference count is C11, clear() is C10. |
| C71 A disposed reference of a refcounted disposable is dropped by it (refuted: references pile up) | partial | C71_reference_kept, C71_references_pile_up, C71_disposed_reference_dropped_refuted | Finding: disposable_wrapper.hpp:137 tests the declared type of the wrapper, so a reference made by add_ref (refcount_disposable.hpp:110) never learns its own address and refcount_disposable.hpp:84 removes an empty wrapper. |
| C72 asio strand scheduler: not before the due time, in order, one at a time; nested tasks exact | partial | C72_not_before_due, C72_disposed, C72_one_at_a_time, C72_order, C72_fifo, C72_all_run, C72_runs_asked, C72_nested_errors, C72_error_reported_refuted, C72_worker_errors_escape, C72_nested_exact, C72_period, C72_timer, C72_drift_refuted, C72_exact_refuted | Environment: timers fire in the order of their expiry, the strand serves handlers in posting order, one at a time. Refuted parts: C72_error_reported_refuted (worker tasks; C72_worker_errors_escape), C72_exact_refuted / C72_drift_refuted (delay_from_this_timepoint counts from the end of the run). |
| C73 Qt main thread scheduler: whole milliseconds are waited, one at a time, no application means on_error | partial | C73_early_partial, C73_whole_ms, C73_not_before_due, C73_timer, C73_early_refuted, C73_due_refuted, C73_period, C73_no_application, C73_errors, C73_error_reported_refuted, C73_disposed, C73_one_at_a_time, C73_order, C73_fifo, C73_all_run, C73_runs_asked | Environment: singleShot(0) posts in order, singleShot(n) fires not before n ms. C73_early_partial: the best bound that holds for every kind of repetition; the full not-before-due claim is false (C73_due_refuted, C73_early_refuted for every n), it is proved for whole milliseconds (C73_not_before_due). C73_error_reported_refuted: exceptions of tasks leave into the Qt event loop. |
| C74 A type-erased observer and all its copies behave as the observer itself | proved | C74_copies, C74_transparent, C74_grammar | Calls one at a time; callbacks do not call their own observer (C05, C59). |
| C75 Subscriptions with a disposable | partial | C75_silent, C75_disposed, C75_delivered, C75_over, C75_released, C75_dispose_releases, C75_not_early, C75_why, C75_callbacks, C75_over_refuted, C75_dispose_refuted, C75_started, C75_started_refuted | Refuted parts, all for observer objects (C75_over_refuted, C75_dispose_refuted, C75_started_refuted); the claims for callbacks and the remaining overloads are proved. |
| C76 timer fires once, at its time | proved | C76_interval_take, C76_timer | The worker runs the schedulable as established by C14-C18 (drop if disposed, call, put back). |
| C77 flat_map delivers everything of every returned observable | proved | C77_flat_map, C77_complete, C77_error | Inner observables and the source are threads making any calls; the observer makes no call back into the operator (C39). map's own gate is subsumed by merge's. |
| C78 Pushing into a source from inside the subscriber's callback | partial | C78_map, C78_filter, C78_skip, C78_take_while, C78_distinct, C78_distinct_until_changed, C78_scan, C78_scan_no_seed, C78_reduce, C78_reduce_no_seed, C78_last, C78_take_last, C78_take, C78_grammar, C78_stop, C78_first_refuted, C78_element_at_refuted, C78_take_error_refuted, C78_throttle_refuted, C78_buffer_refuted, C78_window_refuted, C78_group_by_refuted, C78_scan_reference_refuted, C78_distinct_until_changed_reference_refuted | Proved for map, filter, skip, take_while, distinct, distinct_until_changed, scan, reduce, last, take_last and (values; completion if no error is pushed) take. Refuted for first, element_at, throttle, buffer, window, group_by and take with an error. Pushes come from on_next callbacks of the subscriber (terminal callbacks: C05; operators' own functions do not push). |
| C79 Pushing into a publish_subject from inside its subscribers' callbacks | partial | C79_everyone, C79_first, C79_grammar, C79_stop, C79_end, C79_progress, C79_order_refuted, C79_lost_refuted | Proved: every value exactly once, the first subscriber in pushed order, terminal events and disposal. Refuted for the order seen by later subscribers, and for values under way when a terminal event is pushed from a callback. Pushes come from on_next callbacks; subscribing from inside a callback is C49. |
| C80 from_signal: signals of a Qt object as an observable | proved | C80_alive, C80_destroyed, C80_late, C80_unsubscribed | Signals reach their slot at once (direct connection), the arguments of a signal are one value; signals emitted from inside a subscriber's callback: C79. |
| C81 Synchronous sources combined on one thread take turns | proved | C81_fair, C81_complete, C81_returns, C81_rounds, C81_merge_with, C81_zip, C81_with_latest_from | The subscription is the outermost use of the current_thread queue; the sources' containers do not throw while iterated. Order and totals are stated about the starts of the sources' tasks, the results about the operators of C32, C35, C37 run on the resulting calls; combine_latest: the order of its calls is C81_rounds, its output C36. |
| C82 Operators with several sources stacked on each other: no deadlock, serial calls, results compose | proved | C82_no_deadlock, C82_finite, C82_completes, C82_serial, C82_result, C82_merges | All sources are subscribed before the first one emits; selectors do not throw (throwing ones: C35-C37 for one operator, where on_error is re-entered); chains without seeded scan; disposal travelling up an expression is not modelled: operators whose downstream is over may go on computing, nobody hears them (a disposal that arrives earlier only silences events that would not be heard). C82_completes follows from C82_no_deadlock and C82_finite. |
| C83 One subject feeding several branches that an operator combines again | proved | C83_merge, C83_zip, C83_with_latest_from, C83_combine_latest, C83_glitches | Branch functions and selectors do not throw; the subject is pushed on one thread and not from a callback. The results are those of the operators' step functions (C32, C35-C37) run on the subject's calls. |
| C84 A stream split by group_by or window and merged again | proved | C84_group_by, C84_window, C84_same, C84_firsts, C84_totals | Key selectors do not throw and one thread pushes; window_toggle is not covered here. Calls after the subscriber is over are left out of the run (they find is_disposed()). |
| C85 Composite disposables put into each other | proved | C85_once, C85_released, C85_cleared, C85_reason, C85_exact, C85_progress, C85_ends, C85_clear_cycle | One shared access per step; containers without capacity limit. C85_clear_cycle is the witness of the excepted case (the finding of C10 through other composites). Steps of a loop that finds the editing state are not counted in C85_ends: the holder can go on by C85_progress. |
| C86 Pipelines that change threads on the way | proved | C86_order, C86_complete, C86_same, C86_ends | The calls a chain makes for one event are found first and made one after the other then; a chain's state is given by the events it has been given. Rest means: no thread can go on however far the clock is moved. Errors arriving at an observe_on are excluded in C86_complete and C86_same (they overtake, C44); in C86_order such a step does not exist. |
| C87 Subscribing to a subject while it emits on another thread | partial | C87_with_disposable, C87_without_partial, C87_kept_refuted, C87_race_refuted, C87_not_early | C87_without_partial leaves out observers that released their upstreams between the check and the hand-over; C87_kept_refuted and C87_race_refuted are witnesses of that case. A kept observer is given up when another one leaves or the subject ends. Critical sections of the subject and calls of composite_disposable are single steps (C09). |
| C88 Connecting, disconnecting and connecting again a connectable observable | partial | C88_one_connection, C88_released, C88_ended_is_disposed, C88_values, C88_kept_always, C88_kept_refuted, C88_overlap_refuted, C88_stale_end_refuted | C88_overlap_refuted, C88_stale_end_refuted and C88_kept_refuted are witnesses (the last one for every number of connections; C88_kept_always says the entries always stay). The subject is the publish subject without serialization, with subscribers throughout; add() and dispose() of a composite are single steps (C09). |

363 theorems in 88 properties.

### 6.2 Findings

Claims that are false of the model, each with a theorem that exhibits the failure.  They
were found by reading and proving only; nothing was executed.

| theorem | what happens | where |
|---------|--------------|-------|
| C03_fixed_capacity_refuted | an upstream that does not fit into the fixed container is reported through on_error but never disposed | observers/observer.hpp:57-65 |
| C05_reentrant_terminal_refuted | a value pushed from inside on_completed is delivered after the completion | observers/observer.hpp (terminal calls set the flag after the callback) |
| C10_clear_reentrancy_refuted | clear() disposes the children while holding the Edit state; a child that touches the composite spins forever | disposables/composite_disposable.hpp:123-150 |
| C85_clear_cycle | clear() of a composite that leads back to itself through other composites spins forever (dispose() of the same cycle is fine) | disposables/composite_disposable.hpp:125-151 |
| C14_not_before_due_refuted, C17_period_refuted | the inner loop of drain_queue does not update the stored time point: a periodic task runs before its due time | schedulers/current_thread.hpp:119-134 |
| C19_runs_at_due_time_refuted | time_advance moves the clock first, tasks run at the end of the interval | schedulers/test_scheduler.hpp |
| C21_round_robin_refuted | wrap-around of the worker index repeats a worker unless the thread count divides 2^64 | schedulers/thread_pool.hpp |
| C67_shared_refuted | two threads that create workers at the same time get the same one | schedulers/thread_pool.hpp |
| C22_order_refuted, C22_starvation_refuted | a zero-delay repetition goes on without looking at the queue, for ever | schedulers/new_thread.hpp |
| C57_wakes_for_earlier_refuted | the worker waits until the deadline of the task that was first when it began to wait; an earlier one submitted meanwhile is late | schedulers/new_thread.hpp |
| C25_take_last_vector_bool_refuted, C28_vector_bool_refuted | take_last / buffer of bool use capacity() of vector<bool>, which is rounded up | operators/take_last.hpp, operators/buffer.hpp |
| C33_concat_race_refuted | an observable pushed after the drain found the queue empty is stranded, later delivered out of order | operators/concat.hpp |
| C34_switch_concurrent_refuted | a value of a replaced inner observable is delivered after the switch | operators/switch_on_next.hpp:57-61 |
| C39_*_reentrant_refuted | emitting into an operator's source from its own callback blocks on a non-recursive mutex (merge, zip, combine_latest, take_until, switch_on_next) | operators/details/combining_strategy.hpp, merge.hpp, take_until.hpp, switch_on_next.hpp |
| C58_zip_throw_refuted, C58_combine_latest_throw_refuted | with overlapping calls a further selector call follows the one that threw | operators/zip.hpp, combine_latest.hpp |
| C44_overlap_refuted | observe_on: on_error runs on the source's thread while the worker is inside on_next | operators/delay.hpp / observe_on.hpp |
| C45_lost_refuted | debounce: the pending value is lost if the source completes while the timer thread holds it | operators/debounce.hpp |
| C46_never_refuted, C46_deadlock_refuted | debounce with a scheduler that runs tasks at once locks its own mutex twice | operators/debounce.hpp:50-88 |
| C47_moved_from_refuted | timeout: a value reaches the moved-from observer in a race with the timer | operators/timeout.hpp |
| C49_subscribe_refuted, C49_concurrent_subscribe_refuted | subscribing during an emission invalidates the deque iterators that on_next goes on using | subjects/details/subject_state.hpp |
| C50_*_refuted, C51_*_refuted | behavior / replay subject: a value sent during a subscription is lost or seen twice | subjects/behavior_subject.hpp, replay_subject.hpp |
| C53_orphan_refuted | ref_count: a subscriber that arrives between "count is zero" and "disposed" is never connected | observables/connectable_observable.hpp |
| C54_error_refuted | gRPC: if the source fails while a write is pending the call is finished with status OK | extensions/rppgrpc/rppgrpc/details/base.hpp |
| C62_once_refuted, C62_fail_refuted | gRPC: OnCancel finishes the call a second time | extensions/rppgrpc server reactors |
| C63_cancel_refuted | gRPC: OnCancel overlaps an emission of OnReadDone | extensions/rppgrpc server reactors |
| C59_reentrant_refuted | serialized subject: emitting from a callback blocks for ever | subjects/details (std::mutex) |
| C60_late_refuted, C60_window_refuted, C60_toggle_refuted | a late subscriber of a closed window hears nothing, not even the completion | operators/window.hpp, window_toggle.hpp |
| C61_overlap_refuted, C61_reentrant_refuted | window_toggle: closing from another thread overlaps a value, closing from a callback blocks | operators/window_toggle.hpp |
| C64_nested_refuted | as_blocking inside a task of the current-thread scheduler hangs | operators/as_blocking.hpp, observables/blocking_observable.hpp |
| C64_late_call_refuted | a callback may run after the blocking subscription returned, if another thread disposes it | observables/blocking_observable.hpp |
| C66_flag_race_refuted | just \| observe_on(new_thread) \| take(1): two threads access a non-atomic disposed flag | observers/details/disposable_strategy.hpp |
| C71_references_pile_up, C71_disposed_reference_dropped_refuted | references made by add_ref never learn their own address, so they are not removed from their source when disposed; concat keeps one entry per inner observable | disposables/disposable_wrapper.hpp:137, refcount_disposable.hpp:84 and 110 |
| C72_error_reported_refuted | asio strand: the exception of a task scheduled with the worker is not reported to its handler, it leaves through io_context::run | extensions/rppasio/rppasio/schedulers/strand.hpp |
| C72_exact_refuted, C72_drift_refuted | asio strand: delay_from_this_timepoint counts from the end of the run (documented: from the time point of the current scheduling), interval drifts without bound | extensions/rppasio/rppasio/schedulers/strand.hpp |
| C73_due_refuted, C73_early_refuted | Qt: delays are truncated to milliseconds, runs come early; with delay_from_this_timepoint the error adds up without bound | extensions/rppqt/rppqt/schedulers/main_thread.hpp:47, 66-69 |
| C73_error_reported_refuted | Qt: the exception of a task is not reported to its handler, it leaves into the Qt event loop | extensions/rppqt/rppqt/schedulers/main_thread.hpp:47-50 |
| C75_over_refuted, C75_dispose_refuted | subscribe(disposable, observer object): after a throwing on_next the disposable is not disposed; an on_next that disposes it and throws is followed by on_error | observers/observer.hpp:84-113 (inner observer catches), observables/observable.hpp:109-115 |
| C75_started_refuted | subscribe(disposable, observer) and subscribe_with_disposable(dynamic observer) start the source although the observer is disposed | observables/observable.hpp:110-115, 174-177 |
| C78_first_refuted, C78_element_at_refuted | a value pushed from inside the callback of the wanted value is delivered too; with first, a completion pushed there becomes "not enough emissions" after the value | operators/first.hpp:28-37, element_at.hpp:33-47 (on_next before any note that it is over) |
| C78_take_error_refuted | an error pushed from inside the callback of the n-th value replaces the completion | operators/take.hpp:30-41 |
| C78_throttle_refuted | values pushed from inside the callback are never throttled | operators/throttle.hpp:36-40 (time stored after the downstream call) |
| C78_buffer_refuted | a value pushed from inside the callback is delivered alone (vector taken by value) or lost, with doubled buffers from then on (const reference) | operators/buffer.hpp:41-48 |
| C78_window_refuted | a value pushed while the last value of a window is delivered makes the counter jump over its limit; the next value dereferences an empty std::optional | operators/window.hpp:61-69 |
| C78_group_by_refuted | a value with the same key pushed while its group is announced opens a second group; the first one is orphaned | operators/group_by.hpp:106-129 (emplace after the announcement) |
| C78_*_reference_refuted | scan and distinct_until_changed hand out a reference to their own member, which a nested push changes under the callback | operators/scan.hpp:38-42, distinct_until_changed.hpp:37-38 |
| C79_order_refuted | publish_subject: a value pushed from a subscriber's callback reaches the later subscribers before the value being delivered | subjects/details/subject_state.hpp |
| C79_lost_refuted | publish_subject: a terminal event pushed from a subscriber's callback makes the later subscribers lose the value being delivered | subjects/details/subject_state.hpp |
| C87_kept_refuted, C87_race_refuted | subscribing without a disposable while the subject emits on another thread: an observer that ends before it is given its upstream (take(1)) stays in the subject; its container of upstreams is written and walked by two threads | subjects/details/subject_state.hpp:98-100, observers/observer.hpp:51-59, observers/details/disposable_strategy.hpp:75-91 |
| C88_overlap_refuted, C88_stale_end_refuted, C88_kept_refuted | a connectable observable connected again while the old source is inside a call: the calls of both connections overlap at the subscriber; a completion of the old connection that is under way ends the subject of the new one, whose values are lost; the subject keeps one entry per past connection until it ends | observables/connectable_observable.hpp:100-115, subjects/publish_subject.hpp:30, observers/observer.hpp:59-60, 84-144 |

Also seen, not false of any stated claim: take(0) completes only at the first value; zip
completes only when every source has completed; replay_subject replays after its
termination; move-assignment of the static container destroys slots it does not own when
the sizes differ (C12: undefined behaviour is an explicit outcome there); a user's on_error
that throws terminates the program (noexcept); run_loop::dispatch waits for a due time by
polling; merge's list of upstreams (operators/merge.hpp:67, 88-91) is a plain vector that set_upstream and
on_completed access without the mutex, so an inner subject that completes on another thread while it is
being subscribed is the window of C87_race_refuted once more.

### 6.3 Which definitions model which files

| model | files cited |
|-------|-------------|
| Base | observer.hpp |
| BlockModel | base_disposable.hpp, blocking_observable.hpp, disposable_strategy.hpp, observer.hpp |
| CapModel | blocking_observable.hpp, buffer.hpp, chain_strategy.hpp, combining_strategy.hpp, concat.hpp, connectable_observable.hpp, container.hpp, create.hpp, debounce.hpp, defer.hpp, delay.hpp, disposable_strategy.hpp, distinct.hpp, distinct_until_changed.hpp, dynamic_observable.hpp, element_at.hpp, filter.hpp, finally.hpp, first.hpp, forwarding_subject.hpp, fwd.hpp, group_by.hpp, last.hpp, map.hpp, merge.hpp, observable.hpp, on_error_resume_next.hpp, reduce.hpp, retry.hpp, retry_when.hpp, scan.hpp, skip.hpp, subject_state.hpp, subscribe_on.hpp, switch_on_next.hpp, take.hpp, take_last.hpp, take_until.hpp, take_while.hpp, tap.hpp, throttle.hpp, timeout.hpp, variant_observable.hpp, window.hpp, window_toggle.hpp, with_latest_from.hpp |
| ChainModel | chain_strategy.hpp |
| CompositeModel | base_disposable.hpp, composite_disposable.hpp, container.hpp |
| ConcatModel | concat.hpp, observer.hpp, refcount_disposable.hpp |
| ConnModel | composite_disposable.hpp, connectable_observable.hpp, observable.hpp, observer.hpp, refcount_disposable.hpp |
| DebModel | debounce.hpp, observer.hpp, utils.hpp |
| DelayModel | delay.hpp, observe_on.hpp, observer.hpp |
| DiamModel | chain_strategy.hpp, combining_strategy.hpp, map.hpp, merge.hpp, subject_state.hpp, take_until.hpp, with_latest_from.hpp |
| FairModel | chain_strategy.hpp, combining_strategy.hpp, from.hpp, merge.hpp, with_latest_from.hpp |
| FanModel | forwarding_subject.hpp, group_by.hpp, observer.hpp, refcount_disposable.hpp, window.hpp, window_toggle.hpp |
| GrpcModel | base.hpp, client_reactor.hpp, server_reactor.hpp |
| HandleModel | composite_disposable.hpp, disposable_strategy.hpp, dynamic_observable.hpp, dynamic_observer.hpp, fwd.hpp, lambda_observer.hpp, observable.hpp, observer.hpp, subscribe.hpp |
| HotModel | composite_disposable.hpp, disposable_strategy.hpp, observable.hpp, observer.hpp, subject_state.hpp |
| LoopBase | queue.hpp |
| Machine | chain_strategy.hpp, disposable_strategy.hpp, observer.hpp, strategy.hpp |
| MultiModel | combine_latest.hpp, combining_strategy.hpp, merge.hpp, observer.hpp, switch_on_next.hpp, take_until.hpp, utils.hpp, with_latest_from.hpp, zip.hpp |
| NestModel | observer.hpp, publish_subject.hpp, subject_state.hpp |
| NetModel | base_disposable.hpp, composite_disposable.hpp, container.hpp |
| NewThreadModel | current_thread.hpp, new_thread.hpp, queue.hpp, utils.hpp |
| ObserverModel | container.hpp, disposable_strategy.hpp, lambda_observer.hpp, observer.hpp |
| OnceModel | base_disposable.hpp, callback_disposable.hpp |
| OpsModel | buffer.hpp, distinct.hpp, distinct_until_changed.hpp, element_at.hpp, filter.hpp, first.hpp, last.hpp, map.hpp, reduce.hpp, scan.hpp, skip.hpp, take.hpp, take_last.hpp, take_while.hpp, tap.hpp, throttle.hpp |
| PipeModel | delay.hpp, observe_on.hpp, observer.hpp |
| PoolConcModel | thread_pool.hpp |
| PoolModel | thread_pool.hpp |
| QtModel | main_thread.hpp, worker.hpp |
| QueueModel | queue.hpp |
| RcModel | connectable_observable.hpp, observable.hpp, refcount_disposable.hpp |
| ReconModel | composite_disposable.hpp, connectable_observable.hpp, observable.hpp, observer.hpp, publish_subject.hpp, subject_state.hpp |
| ReentModel | buffer.hpp, distinct.hpp, distinct_until_changed.hpp, element_at.hpp, filter.hpp, first.hpp, group_by.hpp, last.hpp, map.hpp, observer.hpp, reduce.hpp, scan.hpp, skip.hpp, take.hpp, take_last.hpp, take_while.hpp, throttle.hpp, window.hpp |
| ReentrantModel | observer.hpp |
| RefModel | composite_disposable.hpp, concat.hpp, disposable_wrapper.hpp, observer.hpp, refcount_disposable.hpp, switch_on_next.hpp |
| RefcountModel | composite_disposable.hpp, refcount_disposable.hpp |
| RegModel | flat_map.hpp, group_by.hpp, merge.hpp, observer.hpp, switch_on_next.hpp, window.hpp |
| RelModel | combining_strategy.hpp, composite_disposable.hpp, disposable_strategy.hpp, merge.hpp, observer.hpp, take_until.hpp, with_latest_from.hpp |
| ResubModel | concat.hpp, observer.hpp, on_error_resume_next.hpp, repeat.hpp, retry.hpp, retry_when.hpp, start_with.hpp |
| RunLoopModel | queue.hpp, run_loop.hpp, worker.hpp |
| SchedModel | current_thread.hpp, immediate.hpp, queue.hpp, utils.hpp, worker.hpp |
| SchedSlept | utils.hpp |
| SigModel | from_signal.hpp |
| SrcModel | empty.hpp, error.hpp, from.hpp, interval.hpp, never.hpp, subscribe_on.hpp |
| StaticModel | container.hpp |
| StrandModel | current_thread.hpp, queue.hpp, strand.hpp |
| SubjConcModel | behavior_subject.hpp, observer.hpp, replay_subject.hpp, subject_state.hpp |
| SubjModel | behavior_subject.hpp, observer.hpp, publish_subject.hpp, replay_subject.hpp, subject_state.hpp |
| TestModel | queue.hpp, test_scheduler.hpp |
| TmoModel | observer.hpp, timeout.hpp, utils.hpp |
| TogConcModel | window_toggle.hpp |
| TreeModel | combine_latest.hpp, merge.hpp, take_until.hpp, utils.hpp, with_latest_from.hpp, zip.hpp |
| WrapModel | composite_disposable.hpp, disposable_wrapper.hpp, refcount_disposable.hpp |

### 6.4 Files no definition cites

* `extensions/rppasio/rppasio/rppasio.hpp`
* `extensions/rppasio/rppasio/schedulers.hpp`
* `extensions/rppgrpc/rppgrpc/rppgrpc.hpp`
* `extensions/rppgrpc/rppgrpc/utils/exceptions.hpp`
* `extensions/rppqt/rppqt/rppqt.hpp`
* `extensions/rppqt/rppqt/schedulers.hpp`
* `extensions/rppqt/rppqt/sources.hpp`
* `extensions/rppqt/rppqt/utils/exceptions.hpp`
* `rpp/rpp/defs.hpp`
* `rpp/rpp/disposables.hpp`
* `rpp/rpp/disposables/interface_composite_disposable.hpp`
* `rpp/rpp/disposables/interface_disposable.hpp`
* `rpp/rpp/memory_model.hpp`
* `rpp/rpp/observables.hpp`
* `rpp/rpp/observables/grouped_observable.hpp`
* `rpp/rpp/observers.hpp`
* `rpp/rpp/observers/mock_observer.hpp`
* `rpp/rpp/operators.hpp`
* `rpp/rpp/operators/as_blocking.hpp`
* `rpp/rpp/operators/multicast.hpp`
* `rpp/rpp/operators/publish.hpp`
* `rpp/rpp/operators/ref_count.hpp`
* `rpp/rpp/rpp.hpp`
* `rpp/rpp/schedulers.hpp`
* `rpp/rpp/schedulers/computational.hpp`
* `rpp/rpp/sources.hpp`
* `rpp/rpp/sources/just.hpp`
* `rpp/rpp/subjects.hpp`
* `rpp/rpp/subjects/details/subject_on_subscribe.hpp`
* `rpp/rpp/utils/constraints.hpp`
* `rpp/rpp/utils/exceptions.hpp`
* `rpp/rpp/utils/function_traits.hpp`
* `rpp/rpp/utils/functors.hpp`
* `rpp/rpp/utils/tuple.hpp`

The umbrella headers (`rpp.hpp`, `operators.hpp`, ...), `defs.hpp`, the interfaces and the
type-level headers (`constraints.hpp`, `function_traits.hpp`, `tuple.hpp`) contain no
behaviour of their own.  `subscribe.hpp` builds observers out of callbacks (the observer
itself is C01-C03).  What the foreign event
loops do under the Qt and asio schedulers is assumed, see QtModel and StrandModel.
