{
 "claims": [
  {
   "property": "C01",
   "status": "proved",
   "theorems": [
    "C01_parallel_modes_commute",
    "C01_serial_modes_conflict"
   ],
   "note": ""
  },
  {
   "property": "C02",
   "status": "proved",
   "theorems": [
    "C02_overlapping_areas_serial",
    "C02_parallel_areas_disjoint",
    "C02_serial_areas_overlap"
   ],
   "note": ""
  },
  {
   "property": "C03",
   "status": "proved",
   "theorems": [
    "C03_parallel_accesses_do_not_conflict",
    "C03_serial_accesses_conflict"
   ],
   "note": ""
  },
  {
   "property": "C04",
   "status": "proved",
   "theorems": [
    "C04_access_serial_symmetric",
    "C04_policy_serial_symmetric",
    "C04_task_serial_symmetric"
   ],
   "note": ""
  },
  {
   "property": "C05",
   "status": "proved",
   "theorems": [
    "C05_access_superset",
    "C05_superset_inherits_conflicts",
    "C05_superset_permits",
    "C05_superset_reflexive",
    "C05_superset_transitive"
   ],
   "note": ""
  },
  {
   "property": "C06",
   "status": "proved",
   "theorems": [
    "C06_synchronizing_access_is_a_barrier",
    "C06_synchronizing_task_is_a_barrier"
   ],
   "note": ""
  },
  {
   "property": "C07",
   "status": "proved",
   "theorems": [
    "C07_no_shared_resource_no_conflict",
    "C07_tasks_conflict_iff_accesses_conflict"
   ],
   "note": ""
  },
  {
   "property": "C08",
   "status": "proved",
   "theorems": [
    "C08_accepted_children_characterised",
    "C08_child_conflicts_are_parent_conflicts"
   ],
   "note": "For the check that TaskSpace::submit asserts; in a release build the assertion is compiled out."
  },
  {
   "property": "C09",
   "status": "partial",
   "theorems": [
    "C09_args_registered_once_iff_distinct",
    "C09_args_registered_once_refuted",
    "C09_resources_registered_once"
   ],
   "note": "Holds when resources() is called, or when all argument resources are distinct; refuted for arguments naming a resource twice."
  },
  {
   "property": "C10",
   "status": "proved",
   "theorems": [
    "C10_arrow_within_access_refuted",
    "C10_at_any_index_throws_outside_refuted",
    "C10_at_is_one_element",
    "C10_at_throws_outside",
    "C10_guard_within_access",
    "C10_narrowing_never_widens",
    "C10_parallel_guards_disjoint"
   ],
   "note": "For operator[] ; operator-> bypasses the area (refuted), and at() accepts the index 2^64 - 1 (refuted)."
  },
  {
   "property": "C11",
   "status": "partial",
   "theorems": [
    "C11_acceptance_characterised",
    "C11_accepted_patch_is_demotion_partial",
    "C11_demotion_accepted_refuted",
    "C11_patch_leaves",
    "C11_rejected_patch_has_no_effect_refuted"
   ],
   "note": "Nothing but a demotion is accepted, but legal demotions are rejected and rejected patches stay applied (both refuted)."
  },
  {
   "property": "C13",
   "status": "proved",
   "theorems": [
    "C13_conflicting_tasks_run_in_submission_order"
   ],
   "note": "All interleavings for programs whose tasks emplace no tasks; for nested tasks under the schedules of greach (C21, C51 show that the restriction is needed)."
  },
  {
   "property": "C14",
   "status": "proved",
   "theorems": [
    "C14_same_result_as_one_by_one",
    "C14_same_result_when_all_complete"
   ],
   "note": "Programs whose tasks emplace no tasks; any semantics in which non-conflicting operations commute."
  },
  {
   "property": "C15",
   "status": "proved",
   "theorems": [
    "C15_body_runs_at_most_once"
   ],
   "note": "As C13."
  },
  {
   "property": "C16",
   "status": "proved",
   "theorems": [
    "C16_no_deadlock"
   ],
   "note": "One submitting thread; every schedule if tasks emplace no tasks, otherwise those in which children are initialised before the body of their parent ends."
  },
  {
   "property": "C17",
   "status": "proved",
   "theorems": [
    "C17_every_schedule_ends",
    "C17_executions_are_bounded",
    "C17_nested_executions_are_bounded"
   ],
   "note": "As C16."
  },
  {
   "property": "C18",
   "status": "proved",
   "theorems": [
    "C18_a_waiting_task_waits_for_a_conflicting_one"
   ],
   "note": "As C13; needs non-empty areas (an empty area is serial to an area around it, see C02)."
  },
  {
   "property": "C19",
   "status": "proved",
   "theorems": [
    "C19_counter_counts_the_reasons_to_wait",
    "C19_followers_are_final_when_visited",
    "C19_followers_are_visited_once"
   ],
   "note": "As C13."
  },
  {
   "property": "C20",
   "status": "proved",
   "theorems": [
    "C20_later_tasks_wait_for_events",
    "C20_task_completes_after_its_events"
   ],
   "note": "As C13."
  },
  {
   "property": "C21",
   "status": "partial",
   "theorems": [
    "C21_parent_completes_after_its_children_partial",
    "C21_parent_completes_after_its_children_refuted"
   ],
   "note": "Holds when the children have been initialised before the body of the parent ends; refuted without this restriction."
  },
  {
   "property": "C22",
   "status": "partial",
   "theorems": [
    "C22_every_submitted_task_runs_refuted",
    "C22_impatient_tasks_never_run",
    "C22_patient_tasks_run",
    "C22_self_conflicting_task_never_runs",
    "C22_what_waits_behind_it"
   ],
   "note": "Refuted as hoped for: an argument list naming a resource twice makes a self-conflicting task wait for itself. Characterised: exactly such tasks never start, and what waits behind them never starts either; without them every submitted task runs."
  },
  {
   "property": "C23",
   "status": "partial",
   "theorems": [
    "C23_bodies_run_once_partial",
    "C23_conflicting_tasks_never_overlap_partial",
    "C23_each_thread_keeps_its_order_partial",
    "C23_executions_are_bounded_partial",
    "C23_locked_submissions_are_covered",
    "C23_no_deadlock_partial",
    "C23_same_result_as_some_order_partial",
    "C23_sharing_one_resource_pairwise_refuted",
    "C23_single_resource_tasks_all_run",
    "C23_single_resource_tasks_are_covered",
    "C23_submission_from_several_threads_refuted"
   ],
   "note": "Refuted for unrestricted submissions from several threads (also when any two tasks share one resource only). Proved for any number of threads when submissions are orderly: a lock around emplace_task, or tasks that name one resource (every interleaving): exclusion, order of each thread, bodies once, no deadlock, termination, result of some order that keeps each thread's order."
  },
  {
   "property": "C24",
   "status": "partial",
   "theorems": [
    "C24_counters_do_not_overflow",
    "C24_counters_do_not_overflow_nested",
    "C24_counters_do_not_overflow_refuted"
   ],
   "note": "Proved for programs small enough (number of mentions of the resources of a task; nested ones under the schedules of C16), refuted for 65535 events."
  },
  {
   "property": "C25",
   "status": "proved",
   "theorems": [
    "C25_task_memory_is_freed_once_and_last"
   ],
   "note": "As C13."
  },
  {
   "property": "C26",
   "status": "partial",
   "theorems": [
    "C26_freed_tasks_are_not_touched_partial",
    "C26_freed_tasks_are_not_touched_refuted"
   ],
   "note": "Refuted for the read of the waker id after the decrement to 1 (two runs); proved for all other accesses."
  },
  {
   "property": "C29",
   "status": "proved",
   "theorems": [
    "C29_barrier_returns_when_all_tasks_are_gone",
    "C29_barrier_waits_only_for_completion_refuted"
   ],
   "note": "As C13; the unconditional liveness part is refuted (held future)."
  },
  {
   "property": "C51",
   "status": "partial",
   "theorems": [
    "C51_nested_work_runs_in_submission_order_partial",
    "C51_nested_work_runs_in_submission_order_refuted"
   ],
   "note": "Holds under the schedules of greach; refuted otherwise."
  },
  {
   "property": "C40",
   "status": "partial",
   "theorems": [
    "C40_exclude_refuted",
    "C40_first_one_partial",
    "C40_first_one_refuted",
    "C40_first_one_zero",
    "C40_order_refuted",
    "C40_probe_answer",
    "C40_probe_complete",
    "C40_probe_safe",
    "C40_probe_total",
    "C40_probe_undefined_refuted"
   ],
   "note": "Proved for every interference; the lowest-bit search is undefined for the word 2^63 (and so is probing with 64 or more workers); the order of preference and exclude_start are refuted."
  },
  {
   "property": "C41",
   "status": "partial",
   "theorems": [
    "C41_cells",
    "C41_claimable_32",
    "C41_claimable_refuted",
    "C41_exclusive",
    "C41_found",
    "C41_not_found_partial",
    "C41_one_wins_partial",
    "C41_set_old_partial",
    "C41_set_old_refuted",
    "C41_state_answer_partial",
    "C41_upper_half_refuted"
   ],
   "note": "Exclusive for every index; claimable only for indices whose position in the 64-bit chunk is below 32, refuted for the others."
  },
  {
   "property": "C42",
   "status": "proved",
   "theorems": [
    "C42_alternation",
    "C42_exclusion",
    "C42_free_can_be_taken",
    "C42_unlock_frees"
   ],
   "note": "Sequentially consistent atomics; compare_exchange_weak may fail spuriously."
  },
  {
   "property": "C43",
   "status": "proved",
   "theorems": [
    "C43_notified_wait_returns",
    "C43_one_return_per_notify",
    "C43_sleeping_has_waker",
    "C43_terminates"
   ],
   "note": "One waiter, any number of notifiers, spurious wake-ups; ideal mutex and condition variable."
  },
  {
   "property": "C44",
   "status": "proved",
   "theorems": [
    "C44_every_task_is_taken",
    "C44_no_sleep_on_work",
    "C44_stop",
    "C44_stop_called",
    "C44_taken_at_most_once"
   ],
   "note": "One worker with any number of producers, thieves and stopping threads."
  },
  {
   "property": "C45",
   "status": "partial",
   "theorems": [
    "C45_activate_from_any_thread_refuted",
    "C45_busy_fallback_avoids_caller_partial",
    "C45_fair_across_wrap_refuted",
    "C45_fallback_across_wrap_refuted",
    "C45_placed_in_existing_queue",
    "C45_round_robin_is_fair",
    "C45_round_visits_every_worker_once"
   ],
   "note": "In range always; fair and never back to the caller until the 32-bit counter wraps (refuted across the wrap); activation from a non-worker thread with all workers busy is undefined (refuted)."
  },
  {
   "property": "C46",
   "status": "proved",
   "theorems": [
    "C46_dependency_type_of_matching_scheduler_refuted",
    "C46_first_supporting_scheduler",
    "C46_registered_tags",
    "C46_tags_accumulate",
    "C46_unsupported_task_rejected",
    "C46_untagged_goes_to_first",
    "C46_wake_one"
   ],
   "note": "Routing, rejection, tag accumulation. That the sub-scheduler's dependency type is used is refuted (extra)."
  },
  {
   "property": "C47",
   "status": "proved",
   "theorems": [
    "C47_every_request_completes_once",
    "C47_no_event_notified_twice",
    "C47_poll_notifies_exactly_the_reported"
   ],
   "note": "For any answers of MPI_Testsome with distinct positions in range."
  },
  {
   "property": "C48",
   "status": "partial",
   "theorems": [
    "C48_event_in_use_belongs_to_one_task",
    "C48_every_task_notified_or_pending",
    "C48_finished_oldest_is_notified_refuted",
    "C48_notified_in_stream_order_partial",
    "C48_notified_in_stream_order_refuted",
    "C48_notified_once_after_completion",
    "C48_poll_notifies_front_if_finished",
    "C48_polls_drain_finished_stream",
    "C48_pool_never_hands_out_event_in_use"
   ],
   "note": "No sharing, exactly once, only after completion: all interleavings of streams and nested dispatches. In order only if no dispatch is nested in another one on the same stream; refuted otherwise."
  },
  {
   "property": "C49",
   "status": "proved",
   "theorems": [
    "C49_ids_unique",
    "C49_ids_unique_forever_refuted"
   ],
   "note": "Up to 2^32 ids; refuted beyond."
  },
  {
   "property": "C50",
   "status": "partial",
   "theorems": [
    "C50_depth_and_backtrace_follow_nesting",
    "C50_lineage_is_unique",
    "C50_scope_check_any_depth_refuted",
    "C50_scope_check_partial"
   ],
   "note": "Depth (mod 2^32) and backtrace for every nesting; locality of resources below depth 256, refuted from 256 on."
  },
  {
   "property": "C32",
   "status": "proved",
   "theorems": [
    "C32_behaves_as_a_list",
    "C32_destroyed_when_removed_and_released",
    "C32_iteration_gives_live_elements"
   ],
   "note": "Every history of pushes, iterator operations, removals and erases in one thread; chunk sizes below 2^16."
  },
  {
   "property": "C33",
   "status": "partial",
   "theorems": [
    "C33_destroyed_once_and_unheld_partial",
    "C33_destroyed_once_refuted",
    "C33_no_holder_of_destroyed_refuted",
    "C33_refcount_bounded",
    "C33_release_never_throws_refuted",
    "C33_removed_is_destroyed_refuted"
   ],
   "note": "Any number of threads, runs without a stale acquire(); with one, a destroyed element is held, release throws, or the element is destroyed twice (refuted). Removed elements may never be destroyed (refuted)."
  },
  {
   "property": "C34",
   "status": "partial",
   "theorems": [
    "C34_distinct_locations",
    "C34_empty_head_only_during_push",
    "C34_iteration_complete_partial",
    "C34_iteration_complete_refuted",
    "C34_nothing_lost",
    "C34_one_chunk_per_overflow",
    "C34_values_stay"
   ],
   "note": "Distinct locations, values, one chunk per overflow, nothing lost: every interleaving. Completeness of iterations for runs without an iteration beginning at an empty chunk and without a removal beside an unassigned location; refuted with them."
  },
  {
   "property": "C35",
   "status": "partial",
   "theorems": [
    "C35_iteration_complete_partial",
    "C35_offsets_hide_nothing_partial",
    "C35_removal_hides_nothing_refuted"
   ],
   "note": "For serialised pushes (the user lists); refuted for overlapping ones."
  },
  {
   "property": "C36",
   "status": "proved",
   "theorems": [
    "C36_appended_in_order",
    "C36_iteration_complete",
    "C36_iteration_goes_back",
    "C36_one_first_chunk",
    "C36_prev_skips_erased_only"
   ],
   "note": "Every interleaving; nodes are not reclaimed while referenced (shared_ptr)."
  },
  {
   "property": "C37",
   "status": "partial",
   "theorems": [
    "C37_allocate_is_its_accesses",
    "C37_answers_exact_partial",
    "C37_blocks_disjoint_in_range_partial",
    "C37_in_range_refuted",
    "C37_refused_then_out_of_range_refuted",
    "C37_remaining_refuted"
   ],
   "note": "Every interleaving, requests that do not wrap the address; refuted with a wrap. deallocate returns the old count (refuted against its comment)."
  },
  {
   "property": "C38",
   "status": "partial",
   "theorems": [
    "C38_blocks_disjoint_partial",
    "C38_blocks_disjoint_refuted",
    "C38_chunk_of_block_kept_partial",
    "C38_chunk_of_block_kept_refuted",
    "C38_count_exact_partial",
    "C38_empty_chunk_given_back_refuted",
    "C38_every_block_freed_refuted"
   ],
   "note": "Every interleaving of allocations, and of frees, not of both with each other; refuted when they overlap, and for more than 65535 blocks per chunk."
  },
  {
   "property": "C39",
   "status": "partial",
   "theorems": [
    "C39_answered_partial",
    "C39_every_request_answered_refuted",
    "C39_huge_request_refuted",
    "C39_roundup",
    "C39_too_large_for_a_chunk_hangs",
    "C39_up_to_capacity_refuted"
   ],
   "note": "Rounding exact for all sizes; a request that fits a chunk is answered when the thread is alone, with other threads see C73; refuted for sizes between what a chunk can hold and its capacity."
  },
  {
   "property": "C27",
   "status": "proved",
   "theorems": [
    "C27_any_use_refuted",
    "C27_disciplined_is_valid",
    "C27_get_returns_the_value",
    "C27_not_released_early",
    "C27_released_at_most_once",
    "C27_released_by_get",
    "C27_released_exactly_once"
   ],
   "note": "Every history that asks no moved-from or already asked future; asking one is undefined (refuted)."
  },
  {
   "property": "C28",
   "status": "partial",
   "theorems": [
    "C28_copied_builder_usable_refuted",
    "C28_never_undefined_partial",
    "C28_pending_task_has_one_builder",
    "C28_submitted_at_most_once_in_its_space",
    "C28_submitted_exactly_once"
   ],
   "note": "At most once, in the right space, and exactly once when all builders are gone: every history. No undefined behaviour: histories that do not use a builder after it gave its task away (the copy constructor does); refuted otherwise."
  },
  {
   "property": "C12",
   "status": "partial",
   "theorems": [
    "C12_conflicting_task_waits_partial",
    "C12_every_follower_released_refuted",
    "C12_parent_edge_kept_partial",
    "C12_parent_edge_kept_refuted",
    "C12_ready_exactly_once_partial",
    "C12_ready_once_refuted",
    "C12_released_by_update_partial",
    "C12_update_alone"
   ],
   "note": "An undisturbed update_graph removes exactly the live followers that no longer conflict and decrements each released follower's counter once, for every follower list. Beside tasks being initialised, single release, waiting of conflicting tasks and the parent edge are proved under two hypotheses: no removal of a task's entry between push and increment, at most one shared resource per task. Both hypotheses are necessary (refutations), and the parent edge is dropped when child and parent do not conflict (refuted)."
  },
  {
   "property": "C30",
   "status": "partial",
   "theorems": [
    "C30_counter_bounded",
    "C30_lost_wakeup_refuted",
    "C30_one_place_partial",
    "C30_one_worker_refuted",
    "C30_resumed_at_most_once_partial",
    "C30_resumed_partial",
    "C30_yield_waits"
   ],
   "note": "Any number of tasks, events and workers: one place per task, resumed exactly once per suspension and only after the event, counter assertions, proved when the notification of an event neither begins its iteration between test and push of the edge nor visits the edge between its count and up(). Both overlaps are shown to break it (lost wake-up for ever; two workers on one continuation). A body passes a yield only when the event is reached: proved for all runs."
  },
  {
   "property": "C31",
   "status": "partial",
   "theorems": [
    "C31_body_ends_once_partial",
    "C31_body_runs_once_refuted",
    "C31_marked_body_repeats",
    "C31_marked_task_never_ends"
   ],
   "note": "Proved for tasks with stack switching and for tasks without whose yields meet only reached events. Refuted otherwise: the task never ends and its body is repeated without bound."
  },
  {
   "property": "C52",
   "status": "partial",
   "theorems": [
    "C52_any_thread_may_wait_refuted",
    "C52_barrier_returns",
    "C52_barrier_returns_only_when_empty",
    "C52_get_returns_only_when_set",
    "C52_get_returns_partial",
    "C52_get_returns_refuted",
    "C52_no_throw",
    "C52_threads_come_to_rest"
   ],
   "note": "barrier() returns: every run, with store buffers. get(): proved under sequential consistency; refuted with x86 store buffers (plain store of waker_id). Only the thread that constructed the context can wait at all (refuted for others). Never returns early: every run."
  },
  {
   "property": "C53",
   "status": "proved",
   "theorems": [
    "C53_can_read",
    "C53_exclusion",
    "C53_reads_latest"
   ],
   "note": "Any number of threads and variables, views as in release/acquire."
  },
  {
   "property": "C54",
   "status": "partial",
   "theorems": [
    "C54_no_sleep_on_work_partial",
    "C54_no_sleep_on_work_refuted",
    "C54_wakeup_pending_partial"
   ],
   "note": "Proved for runs in which a failing compare-exchange reads the newest value (the case on x86); refuted otherwise."
  },
  {
   "property": "C55",
   "status": "partial",
   "theorems": [
    "C55_all_returned_partial",
    "C55_all_returned_refuted",
    "C55_indices_in_range",
    "C55_memory_is_what_lives_partial",
    "C55_round_robin",
    "C55_round_robin_small"
   ],
   "note": "Memory: at most as many workers as processing units; refuted for every larger number, with the size of the leak. Round robin and index ranges: every number."
  },
  {
   "property": "C56",
   "status": "partial",
   "theorems": [
    "C56_wake_all_ends_refuted",
    "C56_waker_id_partial",
    "C56_waker_id_refuted",
    "C56_wakes_everybody_once_partial",
    "C56_wakes_everybody_refuted"
   ],
   "note": "Fewer than 32768 workers; refuted from there on (workers never woken), from 65535 on the loop does not end."
  },
  {
   "property": "C57",
   "status": "partial",
   "theorems": [
    "C57_finalize_is_bounded",
    "C57_finalize_returns",
    "C57_finalized_means_released_partial",
    "C57_nothing_used_after_teardown_partial",
    "C57_nothing_used_after_teardown_refuted"
   ],
   "note": "Return and boundedness: every run. No use after teardown: releases by the main thread and workers; refuted for other threads."
  },
  {
   "property": "C58",
   "status": "proved",
   "theorems": [
    "C58_executions_are_bounded",
    "C58_final_result_of_the_pool",
    "C58_order_and_once_in_the_pool",
    "C58_pool_refines_the_runtime",
    "C58_sleeping_pool_has_finished",
    "C58_sleeping_worker_has_empty_queues"
   ],
   "note": "Refinement of the machine of C13-C26, invariant against lost wakeups, measure. A condition variable is one flag (C43, C54); the available/busy marks only narrow the choices made here (C69); the sleeping main thread is C52, stopping C44/C57."
  },
  {
   "property": "C59",
   "status": "partial",
   "theorems": [
    "C59_conflicting_operations_keep_their_order_partial",
    "C59_on_the_spot_is_determined",
    "C59_on_the_spot_of_flat_programs",
    "C59_parent_runs_on_the_spot_refuted",
    "C59_result_in_the_pool_partial",
    "C59_result_of_running_on_the_spot_partial",
    "C59_result_of_running_on_the_spot_refuted"
   ],
   "note": "Proved for schedules in which children are initialised before the body of their parent ends, refuted otherwise; refuted for bodies that conflict with tasks they emplaced before. Operations of the main thread are not counted."
  },
  {
   "property": "C60",
   "status": "proved",
   "theorems": [
    "C60_get_returns_after_the_body",
    "C60_get_returns_the_sequential_value",
    "C60_get_waits_with_several_threads",
    "C60_values_are_final_when_the_body_ends",
    "C60_values_with_several_threads"
   ],
   "note": "Programs without nested tasks for the value; get() is called by the main thread or another thread of the user, not inside a task."
  },
  {
   "property": "C61",
   "status": "partial",
   "theorems": [
    "C61_a_body_runs_on_one_thread",
    "C61_barrier_sees_the_tasks",
    "C61_conflicting_tasks_happen_one_before_the_other",
    "C61_every_execution_has_a_history",
    "C61_get_sees_the_body",
    "C61_memory_is_freed_after_the_last_use",
    "C61_no_data_race",
    "C61_no_data_race_with_nested_tasks_partial",
    "C61_no_data_race_with_nested_tasks_refuted",
    "C61_no_data_race_with_several_threads_partial",
    "C61_no_data_race_without_counters_refuted",
    "C61_no_data_race_without_locks_refuted",
    "C61_submission_hands_over",
    "C61_submission_without_queues_refuted",
    "C61_the_history_is_the_log",
    "C61_threads_keep_their_order_partial",
    "C61_waiting_with_several_threads_partial"
   ],
   "note": "Proved for programs without nested tasks under every interleaving; with nested tasks under the conditions of C59, refuted otherwise; with several submitting threads under the schedules of C23. Three refutations show that counters, locks and queues of new tasks are each needed."
  },
  {
   "property": "C62",
   "status": "proved",
   "theorems": [
    "C62_bodies_run_once",
    "C62_conflicting_tasks_are_ordered",
    "C62_each_thread_keeps_its_order",
    "C62_every_execution_has_a_history",
    "C62_every_interleaving_is_covered",
    "C62_executions_are_bounded",
    "C62_no_data_race",
    "C62_no_deadlock_when_the_lists_agree",
    "C62_result_of_some_order_of_the_threads_refuted",
    "C62_same_result_as_in_order_of_execution",
    "C62_threads_happen_in_order",
    "C62_values_in_order_of_execution",
    "C62_waiting_is_ordered"
   ],
   "note": "Proved for tasks that enter every user list at most once; no condition on the interleaving of flat programs. Deadlock in general is refuted under C23, the sequential explanation that keeps the order of the threads is refuted here."
  },
  {
   "property": "C63",
   "status": "partial",
   "theorems": [
    "C63_a_body_is_at_one_place_partial",
    "C63_as_if_waiting_bodies_had_threads_partial",
    "C63_bodies_run_once_partial",
    "C63_conflicting_tasks_are_ordered_partial",
    "C63_each_thread_keeps_its_order_partial",
    "C63_executions_are_bounded_partial",
    "C63_fork_join_programs_are_covered",
    "C63_get_waits_and_children_come_first_partial",
    "C63_no_deadlock_in_every_execution_refuted",
    "C63_no_deadlock_when_the_lists_agree_partial",
    "C63_no_deadlock_with_one_submitting_thread_partial",
    "C63_one_place_in_every_execution_refuted"
   ],
   "note": "Proved for executions without the two races of C30; for all executions the claims are refuted, with witnesses in this machine. Happens-before across suspensions and the value of the run are not part of it."
  },
  {
   "property": "C64",
   "status": "partial",
   "theorems": [
    "C64_any_body_that_waits_refuted",
    "C64_fork_join_programs_partial",
    "C64_get_returns_the_value_on_the_spot_partial",
    "C64_result_of_running_on_the_spot_partial",
    "C64_values_are_final_when_the_body_ends_partial",
    "C64_values_in_the_pool_partial",
    "C64_values_of_nested_tasks_partial",
    "C64_what_is_done_leads_to_the_run_on_the_spot_partial"
   ],
   "note": "Proved for executions without the two races of C30, and children in place when bodies end (no restriction if bodies wait for all their tasks). Without the condition on bodies refuted."
  },
  {
   "property": "C65",
   "status": "partial",
   "theorems": [
    "C65_fork_join_programs_partial",
    "C65_get_returns_the_value_of_the_sequence_partial",
    "C65_nested_tasks_of_several_threads",
    "C65_result_of_every_execution_partial",
    "C65_root_tasks_one_after_another_partial",
    "C65_the_order_is_that_of_each_thread_partial",
    "C65_values_are_final_when_the_body_ends_partial",
    "C65_what_is_done_leads_to_the_sequence_partial"
   ],
   "note": "Proved for executions without the two races of C30, and children in place when bodies end (no restriction if bodies wait for all their tasks); without waiting bodies for the machine of C62."
  },
  {
   "property": "C66",
   "status": "proved",
   "theorems": [
    "C66_calls_per_tile",
    "C66_everything_is_done",
    "C66_executions_are_bounded",
    "C66_factorisation",
    "C66_in_the_pool",
    "C66_pool_executions_are_bounded",
    "C66_result_of_the_loops"
   ],
   "note": "Kernels are functions that touch their tiles only; that they do their job (positive definite matrix, exact arithmetic) is a hypothesis of C66_factorisation alone."
  },
  {
   "property": "C67",
   "status": "proved",
   "theorems": [
    "C67_everything_is_done",
    "C67_executions_are_bounded",
    "C67_in_the_pool",
    "C67_last_generation",
    "C67_output",
    "C67_the_example_as_it_is"
   ],
   "note": "Chunk sizes must divide the field; the loops of the output leave out the last row and column, as in the file."
  },
  {
   "property": "C68",
   "status": "proved",
   "theorems": [
    "C68_a_task_that_calls_barrier_never_ends",
    "C68_barrier_in_a_task_calls_idle",
    "C68_barrier_waits_for_the_current_space_refuted",
    "C68_in_the_pool",
    "C68_nothing_that_waits_for_it_goes_on",
    "C68_with_several_threads_and_waiting_bodies"
   ],
   "note": "The machine stops the thread at the call; the exception thrown by the empty idle function of worker threads (std::terminate, or a handler in the body) is not modelled further."
  },
  {
   "property": "C69",
   "status": "partial",
   "theorems": [
    "C69_claims_are_exclusive_refuted",
    "C69_everything_is_done",
    "C69_executing_worker_is_busy",
    "C69_executions_are_bounded",
    "C69_final_result",
    "C69_marks_refine_the_pool",
    "C69_new_task_is_seen_refuted",
    "C69_no_free_worker_was_overlooked",
    "C69_no_loot_was_overlooked",
    "C69_queued_tasks_wake_a_sleeping_worker_refuted",
    "C69_ready_task_is_seen",
    "C69_sleeping_worker_is_known",
    "C69_sleeping_worker_is_known_refuted"
   ],
   "note": "Partial: that a sleeping worker is known needs at most 32 workers (false for 33, see the _refuted theorem); a failed search may overlook workers in the upper half of a word. emplace_task may choose any worker, EMPLACE_NOTIFY_NEXT is 0 (its default); the round robin choice is any worker (C45)."
  },
  {
   "property": "C70",
   "status": "partial",
   "theorems": [
    "C70_a_body_goes_on_where_it_was_left_partial",
    "C70_a_body_goes_on_without_the_counter_refuted",
    "C70_each_thread_keeps_its_order_partial",
    "C70_every_execution_has_a_history",
    "C70_memory_is_freed_after_the_last_use_partial",
    "C70_no_data_race_in_fork_join_programs_partial",
    "C70_no_data_race_partial",
    "C70_submission_hands_over_partial",
    "C70_the_history_is_the_log",
    "C70_waiting_sees_the_bodies_partial"
   ],
   "note": "Partial: executions with one of the two races of C30 (an edge visited between its count and up(); C63 shows a body taken up twice there) and, where a body does not wait for all its tasks, those in which a body ends before its tasks are initialised. Reading the counters and queues is acquire, changing them release; sg_pause's assignment ends the release sequences before it. The mutex around yield_cont is not used. No task enters one user list twice."
  },
  {
   "property": "C71",
   "status": "proved",
   "theorems": [
    "C71_each_resource_is_hashed_in_order",
    "C71_in_the_pool",
    "C71_the_check_does_not_need_task_0",
    "C71_the_check_does_not_see_the_order",
    "C71_the_check_sees_calls_left_out",
    "C71_the_check_sees_calls_made_twice",
    "C71_the_check_sees_the_order_refuted",
    "C71_the_test_ends",
    "C71_the_test_passes"
   ],
   "note": "With 16-bit edge counters at most 5 resources per task and 13106 tasks (the file has 5 and 128); with unbounded counters no limit. The sleep in the bodies and the finalize() after the check are left out."
  },
  {
   "property": "C72",
   "status": "proved",
   "theorems": [
    "C72_everything_is_done",
    "C72_executions_are_bounded",
    "C72_in_the_pool",
    "C72_messages_with_one_tag_keep_their_order",
    "C72_rank_0_asks_for_source_minus_1",
    "C72_the_example_as_it_is",
    "C72_the_messages",
    "C72_the_ring_turns",
    "C72_the_ring_turns_with_every_mpi_refuted",
    "C72_the_source_is_a_rank_refuted",
    "C72_the_source_is_the_sender",
    "C72_without_any_source_zeros_move_in"
   ],
   "note": "The delivery condition on MPI is a hypothesis (delivers). Left out: that the bodies of the two communication tasks wait for their request (get_status; the request pool is C47, suspending is C63), and that the tagged tasks run on the main thread, which counts as one more worker. int does not overflow. With 16-bit edge counters the number of turns is limited (ring_fits)."
  },
  {
   "property": "C73",
   "status": "proved",
   "theorems": [
    "C73_all_requests_are_answered",
    "C73_chunks_are_bounded",
    "C73_every_thread_is_answered_refuted",
    "C73_executions_are_bounded",
    "C73_no_thread_waits"
   ],
   "note": "Progress of all threads together (lock-freedom); that one thread alone may starve is C73_every_thread_is_answered_refuted. Memory starts at T * chunk size or higher. Adding a chunk is one step (C36), its memory is always granted."
  },
  {
   "property": "C74",
   "status": "proved",
   "theorems": [
    "C74_all_workers_are_used",
    "C74_every_worker_gets_a_task_refuted",
    "C74_no_worker_sleeps_while_a_task_waits_refuted",
    "C74_round_robin_uses_all_workers",
    "C74_tasks_wait_only_for_a_busy_worker",
    "C74_the_test_passes"
   ],
   "note": "That all n bodies run at once is for the n tasks of the test on n workers. In general a worker may sleep while a task waits (C74_no_worker_sleeps_while_a_task_waits_refuted), and the check of the test does not see whether all workers are used (C74_every_worker_gets_a_task_refuted). Pool as in C58: marks of the workers are in C69."
  },
  {
   "property": "C75",
   "status": "proved",
   "theorems": [
    "C75_address_is_end_less_requests",
    "C75_aligned_iff",
    "C75_aligned_to_the_type_refuted",
    "C75_blocks_aligned",
    "C75_objects_of_one_alignment",
    "C75_room_for_any_number_refuted",
    "C75_room_for_the_objects"
   ],
   "note": "Alignment is proved under the condition on all requests that makes it true; without it, it is refuted (C75_aligned_to_the_type_refuted). That hwloc memory starts at page boundaries is not modelled: it is the condition on LMem."
  },
  {
   "property": "C76",
   "status": "proved",
   "theorems": [
    "C76_access_is_json",
    "C76_access_list_is_json",
    "C76_any_label_refuted",
    "C76_json_determines_the_type_refuted",
    "C76_policy_is_json",
    "C76_printing_properties_are_json",
    "C76_task_is_json_refuted",
    "C76_text_determines_the_access",
    "C76_text_determines_the_list"
   ],
   "note": "For accesses and access lists of every type. For the properties of a whole task the opposite is proved (C76_task_is_json_refuted), and for labels with quotes (C76_any_label_refuted). The text of numbers and literals is what fmt is specified to print; scheduling tags and CUDA events are not in the model."
  },
  {
   "property": "C77",
   "status": "proved",
   "theorems": [
    "C77_all_returned_iff",
    "C77_fewest_pages",
    "C77_mapped_pages",
    "C77_memory_in_use_stays",
    "C77_memory_is_bounded_refuted"
   ],
   "note": "For all histories of successful requests and all sizes; that hwloc_free unmaps the pages of the range it is given is what hwloc does on Linux. That memory given back is unmapped is false (C77_memory_is_bounded_refuted); C77_all_returned_iff says when it holds. A failing hwloc_alloc_membind is not modelled."
  },
  {
   "property": "C78",
   "status": "proved",
   "theorems": [
    "C78_any_machine_refuted",
    "C78_on_one_unit",
    "C78_own_arena_iff",
    "C78_own_arena_refuted",
    "C78_pinned",
    "C78_pinned_refuted",
    "C78_units_share_evenly",
    "C78_unpinned_runs_anywhere_refuted",
    "C78_warns_iff_shared"
   ],
   "note": "For all numbers of workers and units. That binding has the effect hwloc documents is assumed (a failure of hwloc_set_cpubind is only logged). What is false is in the statement and in C78_own_arena_refuted, C78_pinned_refuted, C78_unpinned_runs_anywhere_refuted, C78_any_machine_refuted."
  },
  {
   "property": "C79",
   "status": "proved",
   "theorems": [
    "C79_accesses_of_arguments",
    "C79_each_access_once",
    "C79_every_guard_counts_refuted",
    "C79_guards_register_what_they_allow",
    "C79_hidden_guard_warns",
    "C79_order_of_arguments",
    "C79_order_of_entries",
    "C79_order_of_locks_refuted",
    "C79_readers_do_not_write_refuted",
    "C79_reading_stays_reading",
    "C79_warns_iff"
   ],
   "note": "All argument lists and orders of evaluation. Refuted: hidden guards (C79_every_guard_counts_refuted), the order of the entries (C79_order_of_locks_refuted), the public member obj (C79_readers_do_not_write_refuted). User-defined specialisations of BuildProperties and the selection of template specialisations by the compiler are not modelled."
  },
  {
   "property": "C80",
   "status": "partial",
   "theorems": [
    "C80_arguments_stay_with_the_caller",
    "C80_callable_is_kept_refuted",
    "C80_references_are_kept_refuted",
    "C80_references_follow",
    "C80_second_run",
    "C80_second_run_refuted",
    "C80_task_keeps_what_it_was_given",
    "C80_tasks_see_what_is_meant"
   ],
   "note": "For programs that do not use a variable after emplacing it as a callable (C80_tasks_see_what_is_meant); refuted otherwise (C80_callable_is_kept_refuted), for bodies begun twice (C80_second_run_refuted) and for std::ref (C80_references_are_kept_refuted). Parameters taken by value; what bodies do to their captured copies through references is not modelled."
  },
  {
   "property": "C81",
   "status": "partial",
   "theorems": [
    "C81_builders_are_separate",
    "C81_chain_collects_all_changes",
    "C81_deeper_resources_are_demoted",
    "C81_example_asks_for_a_demotion",
    "C81_the_example_demotes_refuted",
    "C81_update_returns_iff"
   ],
   "note": "Builders and the patch of the example proved for all chains, resources and depths; that the example demotes is refuted (C81_the_example_demotes_refuted), except for deeper resources (C81_deeper_resources_are_demoted). Of the properties of a task only the resources are patched in the model."
  },
  {
   "property": "C82",
   "status": "partial",
   "theorems": [
    "C82_every_get_status_may_return_refuted",
    "C82_no_null_request_completes",
    "C82_null_requests_wait_forever",
    "C82_others_can_complete"
   ],
   "note": "For requests that are not null: each may be completed by the next poll (that MPI does so is up to MPI). That get_status may return for every request is refuted (C82_every_get_status_may_return_refuted): null requests wait forever."
  }
 ]
}