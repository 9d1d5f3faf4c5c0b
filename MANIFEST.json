{
 "claims": [
  {
   "property": "C01",
   "status": "proved",
   "theorems": [
    "C01_values_conserved",
    "C01_no_duplicates_no_inventions"
   ],
   "note": "For every history that has not run into undefined behaviour (which C08 shows is reachable with several readers/writers)."
  },
  {
   "property": "C02",
   "status": "proved",
   "theorems": [
    "C02_spsc_order_and_safety",
    "C02_spsc_prefix",
    "C02_spsc_void_safety"
   ],
   "note": "Discipline spsc: one reader, one writer, writes awaited while as open as when created, interrupted operations destroyed promptly."
  },
  {
   "property": "C03",
   "status": "proved",
   "theorems": [
    "C03_rendezvous_safe",
    "C03_rendezvous_pairs"
   ],
   "note": ""
  },
  {
   "property": "C04",
   "status": "proved",
   "theorems": [
    "C04_cancelled_read_takes_nothing",
    "C04_cancelled_write_adds_nothing",
    "C04_failed_write_never_delivered"
   ],
   "note": ""
  },
  {
   "property": "C05",
   "status": "proved",
   "theorems": [
    "C05_close_wakes_everybody",
    "C05_waiting_operations_fail",
    "C05_drain",
    "C05_write_after_close",
    "C05_nothing_enters_after_broken_pipe_refuted"
   ],
   "note": "Extra finding: a write already woken when close() is called still enters the closed channel."
  },
  {
   "property": "C06",
   "status": "proved",
   "theorems": [
    "C06_no_mutual_wait"
   ],
   "note": ""
  },
  {
   "property": "C07",
   "status": "proved",
   "theorems": [
    "C07_completes_at_most_once",
    "C07_never_forgotten",
    "C07_all_complete_after_close"
   ],
   "note": ""
  },
  {
   "property": "C08",
   "status": "partial",
   "theorems": [
    "C08_woken_reader_finds_value_refuted",
    "C08_woken_writer_finds_room_refuted",
    "C08_interrupted_operation_refuted",
    "C08_single_reader_partial",
    "C08_single_writer_partial"
   ],
   "note": "The full statement is false of the code: counterexamples proved. Missing: nothing that holds; positive part restricted to a single reader / single writer."
  },
  {
   "property": "C09",
   "status": "partial",
   "theorems": [
    "C09_no_reader_left_behind_refuted",
    "C09_no_writer_left_behind_refuted",
    "C09_nobody_left_behind_partial"
   ],
   "note": "The full statement is false of the code (wake-up lost when a woken operation is cancelled). Positive part: holds when no operation is cancelled after having been woken."
  },
  {
   "property": "C10",
   "status": "proved",
   "theorems": [
    "C10_void_counts",
    "C10_void_spsc_safe"
   ],
   "note": "Counting law for histories without close (after close channel<void> drops signals, C11)."
  },
  {
   "property": "C11",
   "status": "partial",
   "theorems": [
    "C11_void_drains_after_close_refuted",
    "C11_void_after_close_partial"
   ],
   "note": "False of the code: channel<void> does not drain after close."
  },
  {
   "property": "C12",
   "status": "proved",
   "theorems": [
    "C12_gather_results",
    "C12_gather_waits_for_all",
    "C12_gather_never_cancels"
   ],
   "note": ""
  },
  {
   "property": "C13",
   "status": "partial",
   "theorems": [
    "C13_join_outcome",
    "C13_join_waits_for_all",
    "C13_join_cancels_the_rest",
    "C13_signal_timely_partial",
    "C13_signal_timely_refuted"
   ],
   "note": "Result and one signal per remaining child proved for all runs. That the signal arrives once the child can see it holds in calm runs only (false otherwise: counterexample)."
  },
  {
   "property": "C14",
   "status": "partial",
   "theorems": [
    "C14_race_outcome_partial",
    "C14_race_waits_for_started",
    "C14_race_cancels_losers_partial",
    "C14_signalled_at_most_once",
    "C14_losers_cancelled_refuted",
    "C14_losers_cancelled_throw_refuted",
    "C14_first_outcome_refuted",
    "C14_interrupted_once_refuted"
   ],
   "note": "False of the code in four ways (counterexamples proved); positive theorems name what they exclude."
  },
  {
   "property": "C15",
   "status": "partial",
   "theorems": [
    "C15_starts_in_order",
    "C15_race_stops_partial",
    "C15_left_race_leftmost_partial",
    "C15_race_stops_refuted"
   ],
   "note": "A race decided while a child is being started goes on starting children: counterexample; proved for calm runs."
  },
  {
   "property": "C16",
   "status": "partial",
   "theorems": [
    "C16_error_reported_partial",
    "C16_error_reported_void_transaction_refuted",
    "C16_as_tuple_error_refuted"
   ],
   "note": "False of the code for void winners by transaction and for as_tuple; proved otherwise."
  },
  {
   "property": "C17",
   "status": "proved",
   "theorems": [
    "C17_resumed_at_most_once",
    "C17_resumed_when_all_done",
    "C17_resumed_only_after_last",
    "C17_suspends_only_if_needed"
   ],
   "note": ""
  },
  {
   "property": "C18",
   "status": "partial",
   "theorems": [
    "C18_gather_forwards",
    "C18_forwards_partial",
    "C18_never_to_finished",
    "C18_forwards_refuted"
   ],
   "note": "gather: proved. join/race: a child the combinator has cancelled already does not get the outer signal (counterexample)."
  },
  {
   "property": "C19",
   "status": "partial",
   "theorems": [
    "C19_one_transaction",
    "C19_begins_only_if_undecided",
    "C19_second_attempt_rejected",
    "C19_winner_not_cancelled",
    "C19_others_cancelled_before_commit_partial",
    "C19_others_cancelled_refuted"
   ],
   "note": "At most one transaction: proved. Cancelling all others before the commit: calm runs only, counterexample otherwise."
  },
  {
   "property": "C20",
   "status": "partial",
   "theorems": [
    "C20_defined_partial",
    "C20_outcome_partial",
    "C20_get_partial",
    "C20_value_once_partial",
    "C20_no_lost_wakeup_partial",
    "C20_reawait_refuted",
    "C20_moved_while_awaited_refuted"
   ],
   "note": "Proved for all runs of uses the code supports (Promise_Spec.correct). Outside: a second await gives a moved-from value, moving an awaited handle gives its awaiter moved_from (counterexamples)."
  },
  {
   "property": "C21",
   "status": "partial",
   "theorems": [
    "C21_destroy_cancels_partial",
    "C21_overwrite_cancels_partial",
    "C21_coroutine_survives_partial",
    "C21_signal_alive_partial",
    "C21_escape_only_unowned_partial",
    "C21_destroyed_while_returning_refuted",
    "C21_assign_finished_refuted"
   ],
   "note": "Proved for supported uses; assigning to a finished promise and destroying the handle while its coroutine's locals are destroyed are undefined behaviour (counterexamples)."
  },
  {
   "property": "C22",
   "status": "partial",
   "theorems": [
    "C22_moved_from_partial",
    "C22_inert_partial",
    "C22_assigned_from_hangs_refuted",
    "C22_assigned_from_destroyed_refuted",
    "C22_moved_after_throw_refuted",
    "C22_moved_after_return_refuted"
   ],
   "note": "Move construction while running: proved. Move assignment and moves after the end: false of the code (counterexamples)."
  },
  {
   "property": "C23",
   "status": "partial",
   "theorems": [
    "C23_defined_partial",
    "C23_lazy_partial",
    "C23_begins_once_partial",
    "C23_destroy_unstarted_partial",
    "C23_discarded_never_runs_partial",
    "C23_outcome_partial",
    "C23_value_once_partial",
    "C23_no_lost_wakeup_partial",
    "C23_signal_alive_partial",
    "C23_escape_only_unowned_partial",
    "C23_reawait_running_refuted",
    "C23_second_awaiter_refuted",
    "C23_reawait_refuted",
    "C23_moved_while_awaited_refuted",
    "C23_moved_after_throw_refuted",
    "C23_destroyed_while_returning_refuted"
   ],
   "note": "Proved for all runs of the uses the code supports (Task_Spec.correct). Outside, counterexamples: awaiting a running task resumes it wrongly, etc."
  },
  {
   "property": "C24",
   "status": "partial",
   "theorems": [
    "C24_defined_partial",
    "C24_in_order_partial",
    "C24_errors_partial",
    "C24_exception_once_partial",
    "C24_exception_last_partial",
    "C24_unexpected_last_partial",
    "C24_dropped_partial",
    "C24_no_lost_wakeup_partial",
    "C24_prompt_partial",
    "C24_exception_not_lost",
    "C24_bool_false_partial",
    "C24_bool_true_partial",
    "C24_exception_first_refuted",
    "C24_waits_with_value_refuted",
    "C24_initial_awaited_refuted"
   ],
   "note": "Order and completeness: all runs of supported uses. The exception comes last with a pushed value, without interrupted awaits, or if the coroutine does not await initial (eager); otherwise counterexample. Moving a generator is not modelled."
  },
  {
   "property": "C25",
   "status": "partial",
   "theorems": [
    "C25_in_order_partial",
    "C25_all_partial",
    "C25_none_overwritten_partial",
    "C25_aligned_partial",
    "C25_overwritten_refuted",
    "C25_interrupted_refuted",
    "C25_get_eager_refuted"
   ],
   "note": "Proved without interrupted awaits and get(); counterexamples with them."
  },
  {
   "property": "C26",
   "status": "partial",
   "theorems": [
    "C26_one_outstanding_partial",
    "C26_one_ahead_partial",
    "C26_lazy_partial",
    "C26_two_outstanding_refuted"
   ],
   "note": "At most one value ahead of the awaits, none if lazy: all runs of supported uses. At most one outstanding value: with a pushed value, without interrupted awaits, or if eager; otherwise counterexample."
  },
  {
   "property": "C27",
   "status": "partial",
   "theorems": [
    "C27_order_and_result_partial",
    "C27_teardown_once_partial",
    "C27_finishes_partial",
    "C27_destroyed_once",
    "C27_destroyed_in_func_refuted",
    "C27_awaiter_destroyed_refuted",
    "C27_throwing_move_leaks_refuted",
    "C27_no_executor_refuted"
   ],
   "note": "Order, teardown's argument and the result: proved for every history in which no suspended coroutine is destroyed, there is an executor and moves do not throw. Each exception has a counterexample."
  },
  {
   "property": "C28",
   "status": "partial",
   "theorems": [
    "C28_contents",
    "C28_wait_one_removes_reported_partial",
    "C28_wait_one_reports_once_partial",
    "C28_wait_one_throws_partial",
    "C28_failed_promise_stays_refuted",
    "C28_reap_exact",
    "C28_wait_all_finished_partial",
    "C28_wait_drops_unfinished_refuted",
    "C28_prompt",
    "C28_exit_cancels_then_waits"
   ],
   "note": "reap, cancel and leaving the scope: proved. wait_one removes what it reports unless it throws (the failed promise stays: refuted). wait clears promises pushed meanwhile, which cancels them (refuted). Several coroutines on one group: C71 (refuted there)."
  },
  {
   "property": "C29",
   "status": "partial",
   "theorems": [
    "C29_result_is_the_completions_partial",
    "C29_inline_or_resumed_once_partial",
    "C29_never_resumed_inside_initiation_partial",
    "C29_completion_not_lost_partial",
    "C29_ready_not_suspended",
    "C29_nested_immediate_refuted",
    "C29_caught_exception_hangs_refuted",
    "C29_direct_completion_refuted"
   ],
   "note": "Proved for every initiation that respects asio's rules, never throws inside a function run by the immediate executor and does not invoke the handler after a nested one; the other two cases are refuted."
  },
  {
   "property": "C30",
   "status": "partial",
   "theorems": [
    "C30_initiation_exception_partial",
    "C30_immediate_exception_refuted"
   ],
   "note": "Every throw outside functions run by the immediate executor is reported; inside, the awaiting coroutine is destroyed (refuted). The forms as_tuple/as_result share await_resume's test of init_ep."
  },
  {
   "property": "C31",
   "status": "partial",
   "theorems": [
    "C31_small_buffer_disjoint_partial",
    "C31_small_buffer_reused",
    "C31_small_buffer_huge_request_refuted"
   ],
   "note": "All histories of requests whose rounded size does not wrap; the wrapping request is refuted."
  },
  {
   "property": "C32",
   "status": "partial",
   "theorems": [
    "C32_small_buffer_frees_to_origin_partial",
    "C32_small_buffer_empty_block_refuted",
    "C32_small_buffer_over_aligned_refuted",
    "C32_no_buffer"
   ],
   "note": "All histories with non-empty blocks and alignments dividing alignof(max_align_t); the rest refuted."
  },
  {
   "property": "C33",
   "status": "partial",
   "theorems": [
    "C33_monotonic_disjoint_owned_released",
    "C33_monotonic_bookkeeping_partial",
    "C33_monotonic_aligned_partial",
    "C33_monotonic_alignment_refuted",
    "C33_monotonic_header_overrun_refuted",
    "C33_monotonic_header_overlap_refuted"
   ],
   "note": "User blocks are disjoint, owned, and everything is released once, for all histories; alignment and the block headers' places only under conditions, refuted without."
  },
  {
   "property": "C34",
   "status": "partial",
   "theorems": [
    "C34_frame_partial",
    "C34_main_unsized_refuted",
    "C34_main_unsized_frame"
   ],
   "note": "Proved for every allocation function, size and configuration except main without sized deallocation, which is refuted."
  },
  {
   "property": "C35",
   "status": "partial",
   "theorems": [
    "C35_result_once",
    "C35_wakes_partial",
    "C35_result_given",
    "C35_joined",
    "C35_defined_partial",
    "C35_tuple_refuted",
    "C35_no_suspension_refuted",
    "C35_destroyed_awaiter_refuted",
    "C35_stop"
   ],
   "note": "No lost or double wakeup in any interleaving; the process may end instead (C36), and three uses have undefined behaviour (refuted)."
  },
  {
   "property": "C36",
   "status": "partial",
   "theorems": [
    "C36_delivered_partial",
    "C36_not_silent",
    "C36_terminates_only",
    "C36_late_await_refuted",
    "C36_frame_leaked_refuted"
   ],
   "note": "A suspended awaiter gets exactly the exception; an await begun after the done flag is set gets success and the process terminates (refuted)."
  },
  {
   "property": "C37",
   "status": "partial",
   "theorems": [
    "C37_spawn_outcome_partial",
    "C37_spawn_once_partial",
    "C37_spawn_dropped_partial",
    "C37_run_restores",
    "C37_run_outcome",
    "C37_run_inside",
    "C37_run_defined",
    "C37_spawn_moved_after_throw_refuted",
    "C37_handler_dropped_refuted",
    "C37_foreign_executor_refuted",
    "C37_starved_refuted",
    "C37_destroyed_context_refuted"
   ],
   "note": "spawn: at most once with the task's outcome, never when the coroutine is destroyed from outside (counterexample). run: restores both thread variables; an executor installed by the task stays when there was none before (counterexample)."
  },
  {
   "property": "C38",
   "status": "proved",
   "theorems": [
    "C38_advance",
    "C38_advance_count",
    "C38_size"
   ],
   "note": ""
  },
  {
   "property": "C39",
   "status": "partial",
   "theorems": [
    "C39_iteration",
    "C39_positions",
    "C39_ordering_partial",
    "C39_ordering_refuted"
   ],
   "note": "Iteration and arithmetic: proved. Ordering: proved except where begin() takes part, where it is false of the code (offset SIZE_MAX; counterexample)."
  },
  {
   "property": "C40",
   "status": "proved",
   "theorems": [
    "C40_continues",
    "C40_result",
    "C40_goes_on"
   ],
   "note": ""
  },
  {
   "property": "C41",
   "status": "partial",
   "theorems": [
    "C41_stored",
    "C41_round_trip",
    "C41_constructs",
    "C41_size_partial",
    "C41_copy_partial",
    "C41_path_size_refuted",
    "C41_copied_path_refuted",
    "C41_v6_text_refuted",
    "C41_number_order_refuted"
   ],
   "note": "Round trip: proved for all forms. size() and copies: right except for local endpoints and v6 text without family, where they are wrong for every such endpoint."
  },
  {
   "property": "C42",
   "status": "proved",
   "theorems": [
    "C42_get_if",
    "C42_get_value",
    "C42_accepts_own",
    "C42_udp_v6_refuted",
    "C42_local"
   ],
   "note": "The refuted theorem is about a predefined constant, not about get_if."
  },
  {
   "property": "C43",
   "status": "partial",
   "theorems": [
    "C43_read_partial",
    "C43_write_partial",
    "C43_fallback_read_partial",
    "C43_fallback_write_partial",
    "C43_refused_refuted",
    "C43_misplaced_refuted",
    "C43_wraps_refuted"
   ],
   "note": "Proved with BOOST_ASIO_HAS_FILE. The fallback is wrong for every offset from 5 on and for 1, 2, 4 in general."
  },
  {
   "property": "C44",
   "status": "partial",
   "theorems": [
    "C44_aborts_iff",
    "C44_aborts_partial",
    "C44_no_spurious",
    "C44_query",
    "C44_proceeds",
    "C44_reset",
    "C44_forward",
    "C44_filtered_partial",
    "C44_only_awaits_throw",
    "C44_cancelled",
    "C44_filtered_clears_refuted",
    "C44_deferred_refuted"
   ],
   "note": "Exact characterisation for all histories; a filtered-out signal erases an earlier passing one, and directly awaited asio operations are not checked (both refuted)."
  },
  {
   "property": "C45",
   "status": "partial",
   "theorems": [
    "C45_result_partial",
    "C45_tuple_partial",
    "C45_interpret",
    "C45_initiation_refuted",
    "C45_race_refuted",
    "C45_void_refuted",
    "C45_void_partial",
    "C45_join_refuted",
    "C45_thread_refuted"
   ],
   "note": "Holds for every awaitable and outcome outside five named cases; each of those is refuted with a counterexample."
  },
  {
   "property": "C46",
   "status": "partial",
   "theorems": [
    "C46_distinct",
    "C46_unknown",
    "C46_exceptions_partial",
    "C46_allocation_refuted",
    "C46_moved_from_refuted",
    "C46_failed"
   ],
   "note": "Allocation failure carries the wrong code and moved_from is not a failing code; all else proved."
  },
  {
   "property": "C47",
   "status": "partial",
   "theorems": [
    "C47_completes_once_partial",
    "C47_use_after_free_refuted",
    "C47_late_delete_refuted",
    "C47_exception_refuted",
    "C47_immediate_executor_refuted",
    "C47_destroyed_refuted"
   ],
   "note": "Exactly once: proved for compositions that do not throw, are not destroyed and are not started through the immediate executor. Counterexamples for these, and for the use of the handler after its frame is freed."
  },
  {
   "property": "C48",
   "status": "partial",
   "theorems": [
    "C48_at_most_once",
    "C48_delivered",
    "C48_waits",
    "C48_exit_code",
    "C48_after_partial",
    "C48_dangling_refuted",
    "C48_hang_refuted"
   ],
   "note": "Delivery and exit code proved for every history; \"no delivery after return\" needs that no signal handler is queued at the return, and is refuted without."
  },
  {
   "property": "C49",
   "status": "proved",
   "theorems": [
    "C49_balance",
    "C49_no_leak",
    "C49_once",
    "C49_released",
    "C49_rvalue_resume",
    "C49_lvalue_end_refuted",
    "C49_release_empty_refuted"
   ],
   "note": "Any number of handles and any history of move, reset, release, resume, destroy, under the caller's contract (Handle_Spec.correct). The two _refuted theorems show what happens without it: a coroutine run to its end through an lvalue handle is destroyed twice, and release() of an empty unique_handle<T> dereferences null."
  },
  {
   "property": "C50",
   "status": "proved",
   "theorems": [
    "C50_success",
    "C50_failure",
    "C50_succeeds_iff",
    "C50_make_pair",
    "C50_open",
    "C50_assign",
    "C50_release_close",
    "C50_reports",
    "C50_accounted",
    "C50_closed_once"
   ],
   "note": "Every failure point of connect_pair and make_pair, any number of other sockets, any history; asio's open/assign/close/release modelled after their documentation."
  },
  {
   "property": "C51",
   "status": "partial",
   "theorems": [
    "C51_in_order",
    "C51_complete",
    "C51_throws",
    "C51_prompt",
    "C51_served",
    "C51_no_void_partial",
    "C51_returning_refuted"
   ],
   "note": "Every history of loop and coroutine: values in order, each once; a normal end only after everything was visited; exceptions only after that. Missing: 'stops afterwards' fails if the loop goes on while a returning coroutine destroys its local variables - it then throws 'returned void' (C51_returning_refuted); without that it never does (C51_no_void_partial)."
  },
  {
   "property": "C52",
   "status": "partial",
   "theorems": [
    "C52_one_value_partial",
    "C52_nothing_lost_partial",
    "C52_returns_partial",
    "C52_channels",
    "C52_value_lost_refuted",
    "C52_writer_throws_refuted",
    "C52_interrupted_read_refuted"
   ],
   "note": "False in general: a race that finds waiting writers takes several values and returns one; a writer can be told another transaction has started; an interrupted read leaves a null handle in its channel. Proved for every execution of races awaited while no write waits in their channels; the history of every channel is a channel history without that restriction."
  },
  {
   "property": "C53",
   "status": "partial",
   "theorems": [
    "C53_single_writer_order",
    "C53_many_writers_order_refuted"
   ],
   "note": "Single writer: proved. Several writers: false of the code, counterexample proved."
  },
  {
   "property": "C54",
   "status": "partial",
   "theorems": [
    "C54_no_dangling_partial",
    "C54_no_dangling_refuted",
    "C54_stale_handler_refuted"
   ],
   "note": "False of the code (counterexamples); proved for orderly runs."
  },
  {
   "property": "C55",
   "status": "partial",
   "theorems": [
    "C55_non_empty_partial",
    "C55_empty_range_refuted"
   ],
   "note": "True for every non-empty argument list; false for an empty range."
  },
  {
   "property": "C56",
   "status": "partial",
   "theorems": [
    "C56_destroyed",
    "C56_at_most_twice_partial",
    "C56_late_once_partial",
    "C56_destroyed_once_refuted"
   ],
   "note": "Every finished fork is destroyed; exactly once if its child suspended or it was started after a suspension. Forks that end inside await_ready can be destroyed twice (refuted)."
  },
  {
   "property": "C57",
   "status": "partial",
   "theorems": [
    "C57_ready_once_partial",
    "C57_ready_when",
    "C57_ready_once_refuted"
   ],
   "note": "At most once for race and for the variadic gather/join, at most twice otherwise; ranged gather/join do ask twice (refuted)."
  },
  {
   "property": "C58",
   "status": "partial",
   "theorems": [
    "C58_interrupt_partial",
    "C58_range_partial",
    "C58_join_interrupt_refuted"
   ],
   "note": "Holds for gather, race and the variadic join (which leaves out children it has cancelled); ranged join looks only at the first child (refuted), and works if that child had to wait and nothing failed."
  },
  {
   "property": "C59",
   "status": "partial",
   "theorems": [
    "C59_seek_moves",
    "C59_seek_result_partial",
    "C59_seek_throws_refuted",
    "C59_seek_zero_refuted"
   ],
   "note": "Where the position goes: proved. What is reported is wrong in each configuration in one way."
  },
  {
   "property": "C60",
   "status": "partial",
   "theorems": [
    "C60_pipe",
    "C60_error_refuted"
   ],
   "note": "No descriptor is left open (proved). The failure is never in the result: pipe() does not pass its error_code to connect_pipe, which throws (refuted)."
  },
  {
   "property": "C61",
   "status": "proved",
   "theorems": [
    "C61_adopt"
   ],
   "note": "All kinds, all endpoint protocols."
  },
  {
   "property": "C62",
   "status": "partial",
   "theorems": [
    "C62_same_partial",
    "C62_released_once_partial",
    "C62_no_final_suspend_refuted",
    "C62_final_resumes_refuted",
    "C62_done_refuted",
    "C62_never_done_refuted",
    "C62_suspend_throws_refuted",
    "C62_yield_value_refuted",
    "C62_rethrow_refuted",
    "C62_locals_order_refuted"
   ],
   "note": "Simulation for every body, promise type, awaitables and history without an extraordinary event; each kind of extraordinary event is refuted with a run, and so is the moment at which local variables are destroyed."
  },
  {
   "property": "C63",
   "status": "partial",
   "theorems": [
    "C63_released_partial",
    "C63_exception_leaks_refuted"
   ],
   "note": "Proved for every history in which the body returns or is destroyed while suspended; if an exception leaves the body nothing is ever released (refuted, for all such histories)."
  },
  {
   "property": "C64",
   "status": "partial",
   "theorems": [
    "C64_get",
    "C64_resource",
    "C64_no_dangling_partial",
    "C64_dangling_refuted"
   ],
   "note": "Exact characterisation of get/has_executor and the memory resource for every history of any number of threads; an executor may dangle exactly if another thread destroys its context (refuted)."
  },
  {
   "property": "C65",
   "status": "proved",
   "theorems": [
    "C65_executor",
    "C65_resource"
   ],
   "note": "Every argument list."
  },
  {
   "property": "C66",
   "status": "partial",
   "theorems": [
    "C66_defined_partial",
    "C66_as_unmoved_partial",
    "C66_in_order_partial",
    "C66_pushes_partial",
    "C66_errors_partial",
    "C66_dropped_partial",
    "C66_place_partial",
    "C66_moved_from_partial",
    "C66_assign_ended_refuted",
    "C66_assign_moved_from_refuted",
    "C66_move_awaited_refuted",
    "C66_move_awaited_destroyed_refuted",
    "C66_moved_from_value_refuted"
   ],
   "note": "For any number of generators, moves and assignments: the history of every generator is a history of one that is not moved. False of the code (refuted): assigning to an ended generator, moving one that is awaited, values in objects moved from."
  },
  {
   "property": "C67",
   "status": "partial",
   "theorems": [
    "C67_not_early",
    "C67_not_early_steady",
    "C67_aborted",
    "C67_once",
    "C67_idle",
    "C67_scheduler",
    "C67_no_suspend",
    "C67_queries",
    "C67_expired_after_wait_refuted"
   ],
   "note": "All of the statement except that expired() holds after a successful wait, which is false of the code (refuted)."
  },
  {
   "property": "C68",
   "status": "partial",
   "theorems": [
    "C68_sleep",
    "C68_defined_partial",
    "C68_convert_partial",
    "C68_convert_bound",
    "C68_longest_refuted",
    "C68_convert_refuted"
   ],
   "note": "Proved for every sleep that is defined. False of the code (refuted): overflow for the longest duration, fractions of a nanosecond cut off."
  },
  {
   "property": "C69",
   "status": "partial",
   "theorems": [
    "C69_returns_partial",
    "C69_returns_plain_partial",
    "C69_returns_iff",
    "C69_after_partial",
    "C69_close_run_destroy_partial",
    "C69_waiters_told_refuted",
    "C69_always_returns_refuted",
    "C69_scheduled_use_refuted",
    "C69_close_then_destroy_refuted"
   ],
   "note": "Proved where the code does it: termination and who is destroyed, no later use when nothing unsuitable is scheduled, close-run-destroy. False of the code (refuted): waiting coroutines are told, the destructor returns, nothing scheduled uses the destroyed channel."
  },
  {
   "property": "C70",
   "status": "partial",
   "theorems": [
    "C70_reaches_partial",
    "C70_only_partial",
    "C70_no_dead",
    "C70_composed_refuted",
    "C70_stale_op_refuted",
    "C70_stale_combinator_refuted"
   ],
   "note": "Proved for all chains of promises, tasks, generators, with, combinators, channel operations and ops, with filters: the signal reaches exactly the operations waited for, and never the signal of an ended coroutine. False of the code (refuted): composed operations are reached; nothing is reached that is already complete."
  },
  {
   "property": "C71",
   "status": "partial",
   "theorems": [
    "C71_results_right_partial",
    "C71_waits_partial",
    "C71_woken_partial",
    "C71_group_partial",
    "C71_suspended_has_a_helper",
    "C71_second_told",
    "C71_gather_told",
    "C71_race_steals_refuted",
    "C71_wait_twice_refuted",
    "C71_wait_one_twice_refuted",
    "C71_wait_and_wait_one_refuted",
    "C71_interrupted_gather_refuted"
   ],
   "note": "Proved for all states: a second plain await, and a gather, of an awaited promise gets the error and nobody else notices. Proved for all histories in which race, wait_group and interruption are kept away from promises that others await: every result is right, nobody is destroyed or left waiting. False of the code otherwise (refuted)."
  },
  {
   "property": "C72",
   "status": "partial",
   "theorems": [
    "C72_before_partial",
    "C72_established",
    "C72_all_clear",
    "C72_plaintext_refuted",
    "C72_read_refuted",
    "C72_secure_refuted",
    "C72_second_handshake_refuted",
    "C72_shutdown_refuted"
   ],
   "note": "Proved for streams without a handshake. After a handshake every part of the property is false of the code (refuted): the stream never learns of its handshake and sends everything in the clear."
  },
  {
   "property": "C73",
   "status": "partial",
   "theorems": [
    "C73_plain",
    "C73_unmoved_partial",
    "C73_one_owner",
    "C73_ssl_move_refuted",
    "C73_ssl_dangling_refuted"
   ],
   "note": "Proved for stream_socket, datagram_socket and seq_packet_socket in all histories, and for ssl::stream as long as none is moved. False of moved ssl::streams (refuted)."
  },
  {
   "property": "C74",
   "status": "partial",
   "theorems": [
    "C74_conserved",
    "C74_once",
    "C74_order",
    "C74_progress",
    "C74_cancel_partial",
    "C74_none_lost_partial",
    "C74_cancel_ignored",
    "C74_cancel_refuted",
    "C74_race_refuted",
    "C74_same_socket_refuted"
   ],
   "note": "Conservation, order and single completion are proved for all histories; cancellation is proved for accept(sock) and wait(), and is false of accept() (refuted); that no connection is closed unseen is proved when accept() is not raced and no socket is the target of two accepts, and false otherwise (refuted)."
  },
  {
   "property": "C75",
   "status": "partial",
   "theorems": [
    "C75_endpoint",
    "C75_setup_refuted",
    "C75_bind_never",
    "C75_default_dead"
   ],
   "note": "Proved for the endpoint constructor. The stepwise set-up with bind and listen is impossible (refuted; bind never succeeds in any history)."
  },
  {
   "property": "C76",
   "status": "partial",
   "theorems": [
    "C76_histories_partial",
    "C76_nothing_lost_partial",
    "C76_lvalues_partial",
    "C76_values_partial",
    "C76_exception_last_partial",
    "C76_exception_once_partial",
    "C76_losers_not_cancelled",
    "C76_prompt_partial",
    "C76_value_lost_refuted",
    "C76_exception_first_refuted",
    "C76_waits_with_value_refuted",
    "C76_other_awaiter_refuted"
   ],
   "note": "Proved for all histories of races over lvalue generators that nobody else awaits; promptness and exception order for generators that take pushed values or are eager. False with rvalue arguments, for lazy generators without pushed values, and if others await (refuted)."
  },
  {
   "property": "C77",
   "status": "partial",
   "theorems": [
    "C77_safe_partial",
    "C77_each_await_once_partial",
    "C77_destroyed_once_partial",
    "C77_outcome",
    "C77_last_refusal_partial",
    "C77_refused_then_waits_refuted",
    "C77_refused_then_dropped_refuted",
    "C77_refused_twice_refuted",
    "C77_cancelled_refuted",
    "C77_throws_refuted"
   ],
   "note": "Proved for all histories in which no await_suspend returns false or throws and no cancelled coroutine awaits; and for one such await if the coroutine never waits again. Otherwise false (refuted)."
  },
  {
   "property": "C78",
   "status": "proved",
   "theorems": [
    "C78_once",
    "C78_result",
    "C78_structured",
    "C78_starts",
    "C78_enabled",
    "C78_completes",
    "C78_signalled",
    "C78_signals",
    "C78_signals_start",
    "C78_cancel",
    "C78_unstarted"
   ],
   "note": "For all nests of gather, join, race and left_race over operations that complete at once or from the event loop and are not interruptible."
  },
  {
   "property": "C79",
   "status": "partial",
   "theorems": [
    "C79_one_effect_partial",
    "C79_nothing_lost_partial",
    "C79_returns_partial",
    "C79_cancel_ends_partial",
    "C79_channels",
    "C79_two_writes_refuted",
    "C79_same_channel_refuted",
    "C79_reader_throws_refuted",
    "C79_interrupted_write_refuted"
   ],
   "note": "Refuted for races that find waiting partners or read and write the same channel; proved for all other races, any number of members, channels, limits and schedules."
  },
  {
   "property": "C80",
   "status": "partial",
   "theorems": [
    "C80_promise",
    "C80_promise_at_once",
    "C80_task",
    "C80_task_at_once",
    "C80_generator",
    "C80_generator_at_once",
    "C80_promise_assign_refuted",
    "C80_task_moved_refuted"
   ],
   "note": "Proved for every history; refuted for assigning to the promise (the coroutine's has undefined behaviour) and for awaiting a task that was moved from."
  },
  {
   "property": "C81",
   "status": "proved",
   "theorems": [
    "C81_gather",
    "C81_join",
    "C81_ends_with_the_last",
    "C81_cancel_ends",
    "C81_join_failure_ends",
    "C81_channels",
    "C81_only_channels_go_wrong",
    "C81_nothing_lost",
    "C81_join_loses_refuted",
    "C81_interrupted_refuted"
   ],
   "note": "Every clause is proved for every history. The two refutations mark the limits named in the statement: values read by members of a join that throws, and interruption by an enclosing race."
  },
  {
   "property": "C82",
   "status": "proved",
   "theorems": [
    "C82_body_per_read",
    "C82_conserved",
    "C82_in_order",
    "C82_unbuffered",
    "C82_ends",
    "C82_closed_in_the_body",
    "C82_closed_leaves",
    "C82_closed_while_waiting",
    "C82_waits",
    "C82_served",
    "C82_visits_everything_refuted",
    "C82_ends_quietly_refuted",
    "C82_aborted_refuted",
    "C82_other_reader_refuted"
   ],
   "note": "Every clause is proved for every history. The refutations show what a user might expect and does not get: buffered values at close, a quiet end while waiting, operation_aborted only after a cancellation, a second reader."
  },
  {
   "property": "C83",
   "status": "proved",
   "theorems": [
    "C83_safe",
    "C83_results",
    "C83_deterministic",
    "C83_rest",
    "C83_rest_is_maximal",
    "C83_same_rest",
    "C83_all_terminate",
    "C83_waits",
    "C83_two_writers_refuted",
    "C83_reader_closes_refuted",
    "C83_void_closed_refuted"
   ],
   "note": "Every clause is proved for every network and schedule. The refutations show that the conditions are needed: one writer, closing by the writer only, no closing of channel<void>."
  },
  {
   "property": "C84",
   "status": "partial",
   "theorems": [
    "C84_none_lost",
    "C84_exactly_once",
    "C84_caught_up",
    "C84_genuine",
    "C84_once",
    "C84_wakes_all",
    "C84_kept",
    "C84_waits",
    "C84_accounted",
    "C84_stop",
    "C84_make",
    "C84_add",
    "C84_remove",
    "C84_default",
    "C84_order_refuted",
    "C84_two_waiters_refuted",
    "C84_race_refuted"
   ],
   "note": "Proved for waits that are not members of a race. A race can lose an occurrence, order of arrival is not kept and several waits on one set all get an occurrence (refuted)."
  },
  {
   "property": "C85",
   "status": "partial",
   "theorems": [
    "C85_default",
    "C85_restores",
    "C85_run_order",
    "C85_pool_once",
    "C85_exact",
    "C85_orderly_partial",
    "C85_result",
    "C85_quiet_end",
    "C85_run_result_refuted",
    "C85_thread_destroyed_refuted",
    "C85_thread_threw_refuted",
    "C85_other_thread_refuted",
    "C85_never_started_refuted",
    "C85_foreign"
   ],
   "note": "The full statement is false of the code (refuted). Proved: the default resource is always safe to allocate from, run restores it, cleanup order, and safety for users who keep the rule in Mrs_Spec.v (polite)."
  },
  {
   "property": "C86",
   "status": "partial",
   "theorems": [
    "C86_once",
    "C86_names",
    "C86_own",
    "C86_aborted",
    "C86_cancel",
    "C86_order",
    "C86_alive",
    "C86_ends",
    "C86_uninterruptible",
    "C86_defined",
    "C86_told",
    "C86_timeout_refuted",
    "C86_behind_refuted",
    "C86_duplicates_refuted",
    "C86_dangling_refuted",
    "C86_memory_refuted"
   ],
   "note": "Results, single completion, order, cancel() of queued queries and liveness: proved for all histories. False of the code (refuted): a running lookup can be cancelled, cancelled ones end promptly, no duplicates, strings need not outlive the call, coroutine told without memory."
  },
  {
   "property": "C87",
   "status": "partial",
   "theorems": [
    "C87_once",
    "C87_attempts",
    "C87_success",
    "C87_error",
    "C87_connected",
    "C87_descriptors",
    "C87_ends",
    "C87_stop",
    "C87_stop_result",
    "C87_keeps",
    "C87_cancel_refuted",
    "C87_close_refuted",
    "C87_total_refuted",
    "C87_family_refuted",
    "C87_options_refuted"
   ],
   "note": "Order of attempts, meaning of success and of errors, the socket afterwards, descriptors, signals other than total and the end of every connect: proved for all histories. False of the code (refuted): cancel(), close() and total signals end a connect to a sequence, an endpoint of an unknown family is skipped, options survive."
  },
  {
   "property": "C88",
   "status": "partial",
   "theorems": [
    "C88_descriptors",
    "C88_destroy",
    "C88_construct",
    "C88_construct_refuted",
    "C88_move",
    "C88_ops",
    "C88_defined",
    "C88_no_leak_partial",
    "C88_acts_partial",
    "C88_release_partial",
    "C88_assign_partial",
    "C88_open_partial",
    "C88_open_result_partial",
    "C88_cancel_partial",
    "C88_leak_refuted",
    "C88_cancel_refuted",
    "C88_moved_close_refuted",
    "C88_dangling_refuted",
    "C88_other_refuted"
   ],
   "note": "Every descriptor in exactly one place and closed at most once, destruction, moving, pending operations: proved for all histories and both configurations. The functions of file: for objects not made by moving, or without BOOST_ASIO_HAS_FILE; no leak and cancel: with it. Otherwise false of the code (refuted)."
  },
  {
   "property": "C89",
   "status": "partial",
   "theorems": [
    "C89_bytes",
    "C89_once",
    "C89_delivered",
    "C89_order",
    "C89_results",
    "C89_ready",
    "C89_stop",
    "C89_progress",
    "C89_wait_partial",
    "C89_wait_refuted",
    "C89_spurious_refuted",
    "C89_resume_refuted"
   ],
   "note": "Everything about reading: proved for all histories. That a read after a wait does not wait: for a wait that did not suspend and a single reader; otherwise false (refuted)."
  },
  {
   "property": "C90",
   "status": "partial",
   "theorems": [
    "C90_prefix",
    "C90_count",
    "C90_errors",
    "C90_no_more",
    "C90_stop",
    "C90_completes",
    "C90_together_partial",
    "C90_cancel_partial",
    "C90_together_refuted",
    "C90_cancel_refuted",
    "C90_aborted_refuted"
   ],
   "note": "Counts, prefixes, errors, cancellation and completion: proved for all histories. That the bytes of one write stay together: for a write that no other overlaps; otherwise false (refuted), as is that cancel() stops every write."
  }
 ]
}