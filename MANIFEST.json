{
 "claims": [
  {
   "property": "C01",
   "status": "proved",
   "theorems": [
    "C01_grammar",
    "C01_nothing_after_end",
    "C01_values_in_order",
    "C01_exact_delivery",
    "C01_dispose_inside",
    "C01_is_disposed"
   ],
   "note": ""
  },
  {
   "property": "C02",
   "status": "proved",
   "theorems": [
    "C02_throw_becomes_one_error"
   ],
   "note": ""
  },
  {
   "property": "C03",
   "status": "partial",
   "theorems": [
    "C03_all_released",
    "C03_released_iff",
    "C03_not_released_early",
    "C03_fixed_capacity_partial",
    "C03_fixed_capacity_refuted"
   ],
   "note": "full claim refuted for observers with a fixed upstream capacity (set_upstream throws and the disposable is not released); proved for unlimited capacity"
  },
  {
   "property": "C04",
   "status": "proved",
   "theorems": [
    "C04_chain",
    "C04_chain_grammar",
    "C04_chain_dead",
    "C04_chain_ends",
    "C04_chain_user"
   ],
   "note": ""
  },
  {
   "property": "C05",
   "status": "partial",
   "theorems": [
    "C05_reentrant_grammar_partial",
    "C05_reentrant_terminal_refuted"
   ],
   "note": "claim is false: re-entrant calls made from a terminal callback fire further callbacks; partial: grammar holds without re-entrancy from terminal callbacks"
  },
  {
   "property": "C06",
   "status": "proved",
   "theorems": [
    "C06_nothing_survives",
    "C06_no_premature"
   ],
   "note": ""
  },
  {
   "property": "C07",
   "status": "proved",
   "theorems": [
    "C07_late_add",
    "C07_disposed_forever",
    "C07_no_reference_kept"
   ],
   "note": ""
  },
  {
   "property": "C08",
   "status": "proved",
   "theorems": [
    "C08_at_most_once",
    "C08_exactly_once",
    "C08_second_caller_may_return_first",
    "C08_returned_means_ran"
   ],
   "note": "C08_second_caller_may_return_first is a witness that dispose() returning to a second caller does not mean the action has run"
  },
  {
   "property": "C09",
   "status": "proved",
   "theorems": [
    "C09_linearizable",
    "C09_mutual_exclusion",
    "C09_only_those_write"
   ],
   "note": ""
  },
  {
   "property": "C10",
   "status": "partial",
   "theorems": [
    "C10_clear_reentrancy_refuted",
    "C10_never_stuck_partial",
    "C10_terminates_partial"
   ],
   "note": "claim is false: clear() disposes children while holding the Edit state, so a child whose disposal touches the same composite spins forever; partial: no deadlock when children do not touch the composite or clear is not used; termination for passive children"
  },
  {
   "property": "C11",
   "status": "proved",
   "theorems": [
    "C11_not_early",
    "C11_exactly_when",
    "C11_references_follow",
    "C11_late_refs_empty"
   ],
   "note": "parent composite operations taken as atomic (C09); counter overflow and object lifetime not modelled"
  },
  {
   "property": "C12",
   "status": "proved",
   "theorems": [
    "C12_bounded_list",
    "C12_move_to_fresh",
    "C12_move_to_used_is_ub"
   ],
   "note": "C12_move_to_used_is_ub records an extra finding: move assignment onto a non-empty container constructs over living objects"
  },
  {
   "property": "C13",
   "status": "proved",
   "theorems": [
    "C13_queue_order",
    "C13_first_min_meaning"
   ],
   "note": ""
  },
  {
   "property": "C14",
   "status": "partial",
   "theorems": [
    "C14_loops_not_before_due",
    "C14_not_before_due_refuted",
    "C14_not_before_due_partial"
   ],
   "note": "refuted for current_thread: a periodic task run directly by drain_queue (current_thread.hpp:119-134) waits relative to its stored time point only once, then runs early; partial: first starts and re-emplaced runs are never before due on current_thread/immediate; proved without exception for new_thread, run_loop and test_scheduler (C14_loops_*)"
  },
  {
   "property": "C15",
   "status": "proved",
   "theorems": [
    "C15_trampolining"
   ],
   "note": ""
  },
  {
   "property": "C16",
   "status": "proved",
   "theorems": [
    "C16_queue_order",
    "C16_nondecreasing"
   ],
   "note": ""
  },
  {
   "property": "C17",
   "status": "partial",
   "theorems": [
    "C17_loops_no_drift",
    "C17_loops_period",
    "C17_period_refuted",
    "C17_period_partial"
   ],
   "note": "refuted for current_thread (same drain_queue loop: the stored time point is not updated, so the k-th run may be at t+d); partial: immediate scheduler and re-emplaced tasks keep the period; proved without exception for new_thread, run_loop and test_scheduler (C17_loops_*)"
  },
  {
   "property": "C18",
   "status": "proved",
   "theorems": [
    "C18_loops_disposed",
    "C18_disposed_tasks_do_not_run",
    "C18_disposed_while_sleeping_still_runs",
    "C18_disposed_before_due_immediate"
   ],
   "note": "C18_disposed_while_sleeping_still_runs is a witness that a task disposed by another thread during drain_queue's sleep runs once more (it was picked before)"
  },
  {
   "property": "C19",
   "status": "partial",
   "theorems": [
    "C19_runs_at_due_time_refuted",
    "C19_test_scheduler_partial"
   ],
   "note": "refuted: time_advance moves the clock first, so tasks run at now+d and not at their own due times; everything else (clock, order, exactly the due tasks, nested scheduling) is proved"
  },
  {
   "property": "C20",
   "status": "proved",
   "theorems": [
    "C20_loops_exception",
    "C20_exceptions",
    "C20_error_once"
   ],
   "note": ""
  },
  {
   "property": "C21",
   "status": "partial",
   "theorems": [
    "C21_round_robin_partial",
    "C21_round_robin_refuted"
   ],
   "note": "proved for the first 2^64 workers and for thread counts dividing 2^64; refuted for the wrap-around of m_index (three threads)"
  },
  {
   "property": "C22",
   "status": "partial",
   "theorems": [
    "C22_order_refuted",
    "C22_starvation_refuted",
    "C22_new_thread_partial",
    "C22_terminates"
   ],
   "note": "order refuted: a zero-delay repetition runs again without looking at the queue when the waiting task came from current_thread inside the loop (has_fresh_data not set), without bound (C22_starvation_refuted); sequential execution, order of picks, completeness at exit and absence of lost wake-ups proved"
  },
  {
   "property": "C23",
   "status": "proved",
   "theorems": [
    "C23_run_loop",
    "C23_no_lost_wakeup",
    "C23_stopped"
   ],
   "note": "C23_second_waiter_stays is a witness that disposing (only reachable from the destructor) wakes one of two blocked dispatch calls"
  },
  {
   "property": "C24",
   "status": "proved",
   "theorems": [
    "C24_map",
    "C24_filter",
    "C24_tap_passes",
    "C24_tap_callbacks",
    "C24_map_total",
    "C24_filter_total",
    "C24_finally_once"
   ],
   "note": ""
  },
  {
   "property": "C25",
   "status": "partial",
   "theorems": [
    "C25_take",
    "C25_skip",
    "C25_element_at",
    "C25_first",
    "C25_last",
    "C25_take_while",
    "C25_take_last",
    "C25_take_last_any_capacity",
    "C25_take_last_vector_bool_refuted"
   ],
   "note": "proved for containers whose reserve(n) gives capacity n; refuted for vector<bool> take_last"
  },
  {
   "property": "C26",
   "status": "proved",
   "theorems": [
    "C26_distinct",
    "C26_first_occurrences",
    "C26_distinct_until_changed"
   ],
   "note": ""
  },
  {
   "property": "C27",
   "status": "proved",
   "theorems": [
    "C27_scan",
    "C27_scan_no_seed",
    "C27_reduce",
    "C27_reduce_no_seed",
    "C27_scan_is_fold",
    "C27_reduce_is_fold"
   ],
   "note": ""
  },
  {
   "property": "C28",
   "status": "partial",
   "theorems": [
    "C28_buffer",
    "C28_buffer_unique",
    "C28_vector_bool_refuted"
   ],
   "note": "proved for containers whose reserve(n) gives capacity n; refuted for vector<bool>"
  },
  {
   "property": "C29",
   "status": "proved",
   "theorems": [
    "C29_window"
   ],
   "note": "For every window size, every history of source events, subscriptions, unsubscriptions and drops, one thread; observers do not subscribe in callbacks of other windows."
  },
  {
   "property": "C30",
   "status": "proved",
   "theorems": [
    "C30_group_by"
   ],
   "note": "Keys are numbers; selectors may throw; one thread."
  },
  {
   "property": "C31",
   "status": "proved",
   "theorems": [
    "C31_throttle"
   ],
   "note": ""
  },
  {
   "property": "C32",
   "status": "proved",
   "theorems": [
    "C32_merge_complete",
    "C32_merge",
    "C32_merge_values"
   ],
   "note": "every interleaving, every downstream; the release of the inner observables' disposables is C68"
  },
  {
   "property": "C33",
   "status": "partial",
   "theorems": [
    "C33_concat_partial",
    "C33_concat_sequential",
    "C33_concat_race_refuted"
   ],
   "note": "Proved for every interleaving in which no observable is pushed after the drain found the queue empty (ghost c_late), and for all calls that do not overlap. The full claim is false: C33_concat_race_refuted exhibits a schedule in which a pushed observable is stranded and later delivered out of order (finding)."
  },
  {
   "property": "C34",
   "status": "partial",
   "theorems": [
    "C34_switch_partial",
    "C34_switch_accepts",
    "C34_switch_concurrent_refuted"
   ],
   "note": "calls that do not overlap: proved; overlapping calls: refuted (an inner passes is_disposed() before the switch and delivers afterwards, switch_on_next.hpp:57-61, observer.hpp:84-95)"
  },
  {
   "property": "C35",
   "status": "proved",
   "theorems": [
    "C35_zip",
    "C35_zip_values",
    "C35_zip_sequential"
   ],
   "note": "every interleaving for total selectors; throwing selectors for non-overlapping calls (C35_zip_sequential); see C58 for overlapping ones"
  },
  {
   "property": "C36",
   "status": "proved",
   "theorems": [
    "C36_combine_latest",
    "C36_combine_latest_sequential"
   ],
   "note": "every interleaving for total selectors; throwing selectors for non-overlapping calls; see C58 for overlapping ones"
  },
  {
   "property": "C37",
   "status": "proved",
   "theorems": [
    "C37_with_latest_from",
    "C37_with_latest_from_sequential"
   ],
   "note": "every interleaving for total selectors; throwing selectors for non-overlapping calls"
  },
  {
   "property": "C38",
   "status": "proved",
   "theorems": [
    "C38_take_until",
    "C38_take_until_output"
   ],
   "note": "every interleaving; release of the two subscriptions is C68"
  },
  {
   "property": "C39",
   "status": "partial",
   "theorems": [
    "C39_no_deadlock_partial",
    "C39_merge_reentrant_refuted",
    "C39_zip_reentrant_refuted",
    "C39_combine_latest_reentrant_refuted",
    "C39_take_until_reentrant_refuted",
    "C39_switch_reentrant_refuted"
   ],
   "note": "without re-entrant emission nothing blocks (C39_no_deadlock_partial); with it, merge, zip, combine_latest, take_until and switch_on_next deadlock on their own non-recursive mutex"
  },
  {
   "property": "C40",
   "status": "proved",
   "theorems": [
    "C40_retry",
    "C40_all_fail"
   ],
   "note": "Any number of attempts, any split between subscribe() and another thread, any disposal moment. Count is a natural number; a source that throws from subscribe() must not also have started a thread."
  },
  {
   "property": "C41",
   "status": "proved",
   "theorems": [
    "C41_retry_when",
    "C41_resume_next"
   ],
   "note": "retry_when in all interleavings; on_error_resume_next on the sequence of source and fallback events."
  },
  {
   "property": "C42",
   "status": "proved",
   "theorems": [
    "C42_concat",
    "C42_all",
    "C42_repeat"
   ],
   "note": "repeat and start_with are source::concat on their container (repeat.hpp:29, start_with.hpp:36,57); containers with throwing iterators left out."
  },
  {
   "property": "C43",
   "status": "proved",
   "theorems": [
    "C43_delay"
   ],
   "note": "Any number of worker threads, clock threads and disposals; callbacks of the downstream observer do not throw into the worker."
  },
  {
   "property": "C44",
   "status": "partial",
   "theorems": [
    "C44_no_error_partial",
    "C44_order",
    "C44_overlap_refuted"
   ],
   "note": "Order for all sources; serial delivery for sources that do not fail; with a failing source false: on_error runs on the source's thread while the worker may be inside on_next (finding)."
  },
  {
   "property": "C45",
   "status": "partial",
   "theorems": [
    "C45_debounce",
    "C45_exact",
    "C45_lost_refuted"
   ],
   "note": "General theorem for late and for prompt timers, exact function of the timed events when the timer is prompt and nothing ties. Partial because the claim about the pending value at completion is false in a race: the timer thread may have taken the value and completes second (finding)."
  },
  {
   "property": "C46",
   "status": "partial",
   "theorems": [
    "C46_never_refuted",
    "C46_deadlock_refuted"
   ],
   "note": "False: emplace_safe holds m_mutex while schedule() runs the task, which locks it again; proved for every source and every run that nothing is shown after the first value."
  },
  {
   "property": "C47",
   "status": "partial",
   "theorems": [
    "C47_single_thread_partial",
    "C47_threads_partial",
    "C47_moved_from_refuted"
   ],
   "note": "Everything when the timer task does not overlap the handling of a source event; with several threads everything except one race, in which a value reaches the moved-from observer (finding)."
  },
  {
   "property": "C48",
   "status": "proved",
   "theorems": [
    "C48_publish"
   ],
   "note": ""
  },
  {
   "property": "C49",
   "status": "partial",
   "theorems": [
    "C49_unsubscribe_partial",
    "C49_subscribe_refuted",
    "C49_concurrent_subscribe_refuted"
   ],
   "note": "Proved for callbacks that unsubscribe or dispose (any history). Refuted for callbacks that subscribe and for subscription from another thread: emplace_back invalidates the deque iterators that on_next goes on using (finding)."
  },
  {
   "property": "C50",
   "status": "partial",
   "theorems": [
    "C50_behavior",
    "C50_concurrent_partial",
    "C50_gap_refuted",
    "C50_duplicate_refuted"
   ],
   "note": "Full for histories without overlap. Concurrent: order, suffix and at most one duplicate proved (C50_concurrent_partial); 'no gap, no duplicate' refuted: reading/storing the value and entering/reading the list are separate critical sections (finding)."
  },
  {
   "property": "C51",
   "status": "partial",
   "theorems": [
    "C51_replay",
    "C51_concurrent_partial",
    "C51_gap_refuted",
    "C51_duplicate_refuted"
   ],
   "note": "Full for histories without overlap (limit >= 1 as enforced by the constructor, times non-decreasing). Concurrent part as C50 (finding)."
  },
  {
   "property": "C52",
   "status": "proved",
   "theorems": [
    "C52_serialized"
   ],
   "note": "Mutual exclusion, linearizability and progress for any number of emitting threads; observers are subscribed beforehand."
  },
  {
   "property": "C53",
   "status": "partial",
   "theorems": [
    "C53_history",
    "C53_connect",
    "C53_ref_count",
    "C53_one_connection",
    "C53_released",
    "C53_connected_partial",
    "C53_progress",
    "C53_orphan_refuted"
   ],
   "note": "Every single-threaded history (C53_history, C53_connect, C53_ref_count) in full. ref_count under concurrent subscribe/unsubscribe: one connection at a time, all released at the end, no blocking, connected iff observed (partial: only if nobody subscribes between the counter reaching zero and the disposed flag); C53_orphan_refuted: such a subscriber is never connected."
  },
  {
   "property": "C54",
   "status": "partial",
   "theorems": [
    "C54_writes",
    "C54_error_partial",
    "C54_complete",
    "C54_error_refuted"
   ],
   "note": "Order, one write in flight, finish last, nothing lost: proved for every interleaving. Refuted part: if the source fails while writes are pending the call is finished with status OK (C54_error_refuted)."
  },
  {
   "property": "C55",
   "status": "proved",
   "theorems": [
    "C55_from",
    "C55_from_all",
    "C55_simple",
    "C55_interval",
    "C55_interval_now"
   ],
   "note": "just, from (iterable, callable), empty, never, error and interval, with or without subscribe_on, over any lawful downstream and any moment of unsubscription; disposal is one atomic step."
  },
  {
   "property": "C56",
   "status": "proved",
   "theorems": [
    "C56_window_toggle"
   ],
   "note": "One thread (see C61 for several); closing observables that emit while being subscribed are modelled as emitting right afterwards."
  },
  {
   "property": "C57",
   "status": "partial",
   "theorems": [
    "C57_wakes_for_earlier_refuted",
    "C57_waits_for_some_due_partial"
   ],
   "note": "claim is false: wait_for keeps the deadline of the task that was first when it started waiting; partial: the wait ends at the due time of some waiting task"
  },
  {
   "property": "C58",
   "status": "partial",
   "theorems": [
    "C58_zip_throw_refuted",
    "C58_combine_latest_throw_refuted",
    "C58_throw_sequential"
   ],
   "note": "holds when calls do not overlap; refuted for overlapping calls of zip and combine_latest"
  },
  {
   "property": "C59",
   "status": "partial",
   "theorems": [
    "C59_reentrant_refuted"
   ],
   "note": "Refuted: m_serialized_mutex is a plain std::mutex, so the emitting thread waits for itself (finding)."
  },
  {
   "property": "C60",
   "status": "partial",
   "theorems": [
    "C60_late_refuted",
    "C60_window_refuted",
    "C60_toggle_refuted"
   ],
   "note": "False: the window's subject state is destroyed when the window closes, so a late observer hears nothing (general statement plus one run each for window and window_toggle)."
  },
  {
   "property": "C61",
   "status": "partial",
   "theorems": [
    "C61_source_partial",
    "C61_overlap_refuted",
    "C61_reentrant_refuted"
   ],
   "note": "Proved for source values on any number of threads; false as soon as a closing observable fires on another thread (overlap) or from a callback (self-deadlock)."
  },
  {
   "property": "C62",
   "status": "partial",
   "theorems": [
    "C62_once_partial",
    "C62_once_refuted",
    "C62_fail_refuted"
   ],
   "note": "Proved without cancellation; with OnCancel the call is finished twice (C62_once_refuted, C62_fail_refuted)."
  },
  {
   "property": "C63",
   "status": "partial",
   "theorems": [
    "C63_reader_partial",
    "C63_failed_read_is_last",
    "C63_cancel_refuted"
   ],
   "note": "Proved for OnReadDone/OnDone in any number of threads; OnCancel of server reactors can overlap an emission (C63_cancel_refuted)."
  },
  {
   "property": "C64",
   "status": "proved",
   "theorems": [
    "C64_returns",
    "C64_no_hang",
    "C64_all",
    "C64_late_calls",
    "C64_late_call_refuted",
    "C64_nested_refuted"
   ],
   "note": "Full statement for every interleaving (C64_returns, C64_no_hang, C64_all). Beside it C64_nested_refuted: inside a current-thread task the subscription hangs, because the emissions are queued behind the blocked task. C64_late_call_refuted: a callback whose thread had passed is_disposed() before the disposal may start after subscribe has returned; C64_late_calls bounds them."
  },
  {
   "property": "C65",
   "status": "proved",
   "theorems": [
    "C65_capacity",
    "C65_observer",
    "C65_tight"
   ],
   "note": "Full statement by induction over all chains; C65_observer ties it to the observer model."
  },
  {
   "property": "C66",
   "status": "partial",
   "theorems": [
    "C66_flag_race_refuted",
    "C66_mode_partial"
   ],
   "note": "Refuted: just(..) | observe_on(new_thread) | take(1) (C66_flag_race_refuted). C66_mode_partial: exactly which observables use the non-atomic flag; freedom from races of the chains without delay/observe_on is not proved."
  },
  {
   "property": "C67",
   "status": "partial",
   "theorems": [
    "C67_in_bounds",
    "C67_serial_partial",
    "C67_shared_refuted"
   ],
   "note": "In bounds for every interleaving, round robin when one thread creates all workers; C67_shared_refuted: two threads get the same worker."
  },
  {
   "property": "C68",
   "status": "proved",
   "theorems": [
    "C68_all_released",
    "C68_ended_source_released",
    "C68_not_early"
   ],
   "note": "merge, take_until, with_latest_from, zip/combine_latest; switch_on_next and concat: see C69. User callbacks return normally."
  },
  {
   "property": "C69",
   "status": "proved",
   "theorems": [
    "C69_all_released",
    "C69_ended_source_released",
    "C69_replaced_released",
    "C69_switch_not_early"
   ],
   "note": "switch_on_next and concat with their references; the early-release half is claimed (and proved) for switch_on_next only. Flag and count of a reference change in one step (C11 covers them apart); subscribe() of an inner observable does not throw."
  },
  {
   "property": "C70",
   "status": "proved",
   "theorems": [
    "C70_last_owner_disposes",
    "C70_once",
    "C70_reason",
    "C70_asked_disposed",
    "C70_children_disposed",
    "C70_owned_alive",
    "C70_source_kept",
    "C70_reference_kept_alive",
    "C70_settles"
   ],
   "note": "One thread; owner counts of std::shared_ptr as numbers. release() of the reference count is C11, clear() is C10."
  },
  {
   "property": "C71",
   "status": "partial",
   "theorems": [
    "C71_reference_kept",
    "C71_references_pile_up",
    "C71_disposed_reference_dropped_refuted"
   ],
   "note": "Finding: disposable_wrapper.hpp:137 tests the declared type of the wrapper, so a reference made by add_ref (refcount_disposable.hpp:110) never learns its own address and refcount_disposable.hpp:84 removes an empty wrapper."
  },
  {
   "property": "C72",
   "status": "partial",
   "theorems": [
    "C72_not_before_due",
    "C72_disposed",
    "C72_one_at_a_time",
    "C72_order",
    "C72_fifo",
    "C72_all_run",
    "C72_runs_asked",
    "C72_nested_errors",
    "C72_error_reported_refuted",
    "C72_worker_errors_escape",
    "C72_nested_exact",
    "C72_period",
    "C72_timer",
    "C72_drift_refuted",
    "C72_exact_refuted"
   ],
   "note": "Environment: timers fire in the order of their expiry, the strand serves handlers in posting order, one at a time. Refuted parts: C72_error_reported_refuted (worker tasks; C72_worker_errors_escape), C72_exact_refuted / C72_drift_refuted (delay_from_this_timepoint counts from the end of the run)."
  },
  {
   "property": "C73",
   "status": "partial",
   "theorems": [
    "C73_early_partial",
    "C73_whole_ms",
    "C73_not_before_due",
    "C73_timer",
    "C73_early_refuted",
    "C73_due_refuted",
    "C73_period",
    "C73_no_application",
    "C73_errors",
    "C73_error_reported_refuted",
    "C73_disposed",
    "C73_one_at_a_time",
    "C73_order",
    "C73_fifo",
    "C73_all_run",
    "C73_runs_asked"
   ],
   "note": "Environment: singleShot(0) posts in order, singleShot(n) fires not before n ms. C73_early_partial: the best bound that holds for every kind of repetition; the full not-before-due claim is false (C73_due_refuted, C73_early_refuted for every n), it is proved for whole milliseconds (C73_not_before_due). C73_error_reported_refuted: exceptions of tasks leave into the Qt event loop."
  },
  {
   "property": "C74",
   "status": "proved",
   "theorems": [
    "C74_copies",
    "C74_transparent",
    "C74_grammar"
   ],
   "note": "Calls one at a time; callbacks do not call their own observer (C05, C59)."
  },
  {
   "property": "C75",
   "status": "partial",
   "theorems": [
    "C75_silent",
    "C75_disposed",
    "C75_delivered",
    "C75_over",
    "C75_released",
    "C75_dispose_releases",
    "C75_not_early",
    "C75_why",
    "C75_callbacks",
    "C75_over_refuted",
    "C75_dispose_refuted",
    "C75_started",
    "C75_started_refuted"
   ],
   "note": "Refuted parts, all for observer objects (C75_over_refuted, C75_dispose_refuted, C75_started_refuted); the claims for callbacks and the remaining overloads are proved."
  },
  {
   "property": "C76",
   "status": "proved",
   "theorems": [
    "C76_interval_take",
    "C76_timer"
   ],
   "note": "The worker runs the schedulable as established by C14-C18 (drop if disposed, call, put back)."
  },
  {
   "property": "C77",
   "status": "proved",
   "theorems": [
    "C77_flat_map",
    "C77_complete",
    "C77_error"
   ],
   "note": "Inner observables and the source are threads making any calls; the observer makes no call back into the operator (C39). map's own gate is subsumed by merge's."
  },
  {
   "property": "C78",
   "status": "partial",
   "theorems": [
    "C78_map",
    "C78_filter",
    "C78_skip",
    "C78_take_while",
    "C78_distinct",
    "C78_distinct_until_changed",
    "C78_scan",
    "C78_scan_no_seed",
    "C78_reduce",
    "C78_reduce_no_seed",
    "C78_last",
    "C78_take_last",
    "C78_take",
    "C78_grammar",
    "C78_stop",
    "C78_first_refuted",
    "C78_element_at_refuted",
    "C78_take_error_refuted",
    "C78_throttle_refuted",
    "C78_buffer_refuted",
    "C78_window_refuted",
    "C78_group_by_refuted",
    "C78_scan_reference_refuted",
    "C78_distinct_until_changed_reference_refuted"
   ],
   "note": "Proved for map, filter, skip, take_while, distinct, distinct_until_changed, scan, reduce, last, take_last and (values; completion if no error is pushed) take. Refuted for first, element_at, throttle, buffer, window, group_by and take with an error. Pushes come from on_next callbacks of the subscriber (terminal callbacks: C05; operators' own functions do not push)."
  },
  {
   "property": "C79",
   "status": "partial",
   "theorems": [
    "C79_everyone",
    "C79_first",
    "C79_grammar",
    "C79_stop",
    "C79_end",
    "C79_progress",
    "C79_order_refuted",
    "C79_lost_refuted"
   ],
   "note": "Proved: every value exactly once, the first subscriber in pushed order, terminal events and disposal. Refuted for the order seen by later subscribers, and for values under way when a terminal event is pushed from a callback. Pushes come from on_next callbacks; subscribing from inside a callback is C49."
  },
  {
   "property": "C80",
   "status": "proved",
   "theorems": [
    "C80_alive",
    "C80_destroyed",
    "C80_late",
    "C80_unsubscribed"
   ],
   "note": "Signals reach their slot at once (direct connection), the arguments of a signal are one value; signals emitted from inside a subscriber's callback: C79."
  },
  {
   "property": "C81",
   "status": "proved",
   "theorems": [
    "C81_fair",
    "C81_complete",
    "C81_returns",
    "C81_rounds",
    "C81_merge_with",
    "C81_zip",
    "C81_with_latest_from"
   ],
   "note": "The subscription is the outermost use of the current_thread queue; the sources' containers do not throw while iterated. Order and totals are stated about the starts of the sources' tasks, the results about the operators of C32, C35, C37 run on the resulting calls; combine_latest: the order of its calls is C81_rounds, its output C36."
  },
  {
   "property": "C82",
   "status": "proved",
   "theorems": [
    "C82_no_deadlock",
    "C82_finite",
    "C82_completes",
    "C82_serial",
    "C82_result",
    "C82_merges"
   ],
   "note": "All sources are subscribed before the first one emits; selectors do not throw (throwing ones: C35-C37 for one operator, where on_error is re-entered); chains without seeded scan; disposal travelling up an expression is not modelled: operators whose downstream is over may go on computing, nobody hears them (a disposal that arrives earlier only silences events that would not be heard). C82_completes follows from C82_no_deadlock and C82_finite."
  },
  {
   "property": "C83",
   "status": "proved",
   "theorems": [
    "C83_merge",
    "C83_zip",
    "C83_with_latest_from",
    "C83_combine_latest",
    "C83_glitches"
   ],
   "note": "Branch functions and selectors do not throw; the subject is pushed on one thread and not from a callback. The results are those of the operators' step functions (C32, C35-C37) run on the subject's calls."
  },
  {
   "property": "C84",
   "status": "proved",
   "theorems": [
    "C84_group_by",
    "C84_window",
    "C84_same",
    "C84_firsts",
    "C84_totals"
   ],
   "note": "Key selectors do not throw and one thread pushes; window_toggle is not covered here. Calls after the subscriber is over are left out of the run (they find is_disposed())."
  },
  {
   "property": "C85",
   "status": "proved",
   "theorems": [
    "C85_once",
    "C85_released",
    "C85_cleared",
    "C85_reason",
    "C85_exact",
    "C85_progress",
    "C85_ends",
    "C85_clear_cycle"
   ],
   "note": "One shared access per step; containers without capacity limit. C85_clear_cycle is the witness of the excepted case (the finding of C10 through other composites). Steps of a loop that finds the editing state are not counted in C85_ends: the holder can go on by C85_progress."
  },
  {
   "property": "C86",
   "status": "proved",
   "theorems": [
    "C86_order",
    "C86_complete",
    "C86_same",
    "C86_ends"
   ],
   "note": "The calls a chain makes for one event are found first and made one after the other then; a chain's state is given by the events it has been given. Rest means: no thread can go on however far the clock is moved. Errors arriving at an observe_on are excluded in C86_complete and C86_same (they overtake, C44); in C86_order such a step does not exist."
  },
  {
   "property": "C87",
   "status": "partial",
   "theorems": [
    "C87_with_disposable",
    "C87_without_partial",
    "C87_kept_refuted",
    "C87_race_refuted",
    "C87_not_early"
   ],
   "note": "C87_without_partial leaves out observers that released their upstreams between the check and the hand-over; C87_kept_refuted and C87_race_refuted are witnesses of that case. A kept observer is given up when another one leaves or the subject ends. Critical sections of the subject and calls of composite_disposable are single steps (C09)."
  },
  {
   "property": "C88",
   "status": "partial",
   "theorems": [
    "C88_one_connection",
    "C88_released",
    "C88_ended_is_disposed",
    "C88_values",
    "C88_kept_always",
    "C88_kept_refuted",
    "C88_overlap_refuted",
    "C88_stale_end_refuted"
   ],
   "note": "C88_overlap_refuted, C88_stale_end_refuted and C88_kept_refuted are witnesses (the last one for every number of connections; C88_kept_always says the entries always stay). The subject is the publish subject without serialization, with subscribers throughout; add() and dispose() of a composite are single steps (C09)."
  }
 ]
}