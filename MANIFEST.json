{
 "claims": [
  {
   "property": "C01",
   "status": "proved",
   "theorems": [
    "at_most_one_completion",
    "exactly_one_completion"
   ],
   "note": "for every well-typed sender expression, environment and event sequence; well-typedness (wt) excludes finally over errors whose copy throws and repeat_n(0) over a sender without value completion"
  },
  {
   "property": "C02",
   "status": "proved",
   "theorems": [
    "completed_means_quiescent",
    "not_completed_means_running",
    "no_undefined_behaviour"
   ],
   "note": ""
  },
  {
   "property": "C03",
   "status": "partial",
   "theorems": [
    "completion_signatures_sound_partial",
    "repeat_n_zero_signature_refuted",
    "finally_error_copy_signature_refuted"
   ],
   "note": "full statement is false of the code: repeat_n(0) and finally with throwing error copies deliver completions that are not declared; proved for everything else"
  },
  {
   "property": "C04",
   "status": "proved",
   "theorems": [
    "then_calls_function_on_its_channel"
   ],
   "note": ""
  },
  {
   "property": "C05",
   "status": "proved",
   "theorems": [
    "let_runs_the_produced_sender"
   ],
   "note": ""
  },
  {
   "property": "C06",
   "status": "proved",
   "theorems": [
    "when_all_concatenates_in_argument_order",
    "when_all_all_values",
    "when_all_follows_its_log"
   ],
   "note": ""
  },
  {
   "property": "C07",
   "status": "proved",
   "theorems": [
    "when_all_first_failure",
    "when_all_failure_asks_siblings_to_stop",
    "when_all_follows_its_log"
   ],
   "note": "shielded leaves (write_env with never_stop_token) excepted"
  },
  {
   "property": "C08",
   "status": "proved",
   "theorems": [
    "continues_on_transfers",
    "continues_on_value_on_scheduler",
    "starts_on_starts_on_scheduler",
    "on_starts_there_and_returns",
    "continues_on_error_on_scheduler_refuted"
   ],
   "note": "value completions; an error produced by a throwing copy is delivered on the old context"
  },
  {
   "property": "C09",
   "status": "partial",
   "theorems": [
    "finally_runs_cleanup_and_replays_partial",
    "finally_cleanup_always_runs_refuted"
   ],
   "note": "if copying the result throws, the cleanup sender never runs"
  },
  {
   "property": "C10",
   "status": "proved",
   "theorems": [
    "sequence_runs_one_after_another"
   ],
   "note": "n-ary sequence is nested binary sequence"
  },
  {
   "property": "C11",
   "status": "proved",
   "theorems": [
    "repeat_until_iterates",
    "repeat_n_iterates"
   ],
   "note": ""
  },
  {
   "property": "C12",
   "status": "proved",
   "theorems": [
    "into_variant_translates",
    "stopped_as_optional_translates",
    "stopped_as_error_translates"
   ],
   "note": ""
  },
  {
   "property": "C13",
   "status": "proved",
   "theorems": [
    "stop_request_reaches_every_leaf",
    "stop_request_alone_completes_nothing"
   ],
   "note": ""
  },
  {
   "property": "C14",
   "status": "proved",
   "theorems": [
    "law_just_let_value",
    "law_let_value_just",
    "law_then_then",
    "law_sequence_assoc",
    "law_let_value_assoc",
    "law_other_channel_is_identity"
   ],
   "note": ""
  },
  {
   "property": "C15",
   "status": "proved",
   "theorems": [
    "C15_request_stop_wins_once",
    "C15_return_implies_stop_requested",
    "C15_stop_requested_stable"
   ],
   "note": "sequentially consistent interleavings"
  },
  {
   "property": "C16",
   "status": "proved",
   "theorems": [
    "C16_invoked_at_most_once",
    "C16_invoked_only_after_stop",
    "C16_inline_if_already_stopped",
    "C16_not_both_inline_and_notified",
    "C16_all_run_before_return"
   ],
   "note": "sequentially consistent interleavings"
  },
  {
   "property": "C17",
   "status": "proved",
   "theorems": [
    "C17_destructor_synchronises",
    "C17_no_self_wait",
    "C17_no_deadlock"
   ],
   "note": "deadlock freedom = every blocked thread waits for a thread that can move; fairness not modelled"
  },
  {
   "property": "C18",
   "status": "proved",
   "theorems": [
    "C18_mutual_exclusion",
    "C18_callback_list",
    "C18_no_use_after_free"
   ],
   "note": ""
  },
  {
   "property": "C19",
   "status": "proved",
   "theorems": [
    "C19_fifo",
    "C19_executed_at_most_once",
    "C19_executed_only_if_started",
    "C19_signal"
   ],
   "note": "run_loop at atomic-step granularity, any number of threads; together with C20_return_after_all_work each started operation is executed exactly once"
  },
  {
   "property": "C20",
   "status": "proved",
   "theorems": [
    "C20_return_after_finish",
    "C20_return_after_all_work",
    "C20_finish_done_at_return",
    "C20_no_lost_wakeup",
    "C20_blocked_only_when_idle",
    "C20_run_returns_after_finish"
   ],
   "note": "start() having begun = its first instruction (the count increment) was executed"
  },
  {
   "property": "C21",
   "status": "proved",
   "theorems": [
    "C21_push_back",
    "C21_push_front",
    "C21_pop_front",
    "C21_append",
    "C21_prepend",
    "C21_make",
    "C21_make_reversed",
    "C21_empty_clear",
    "C21_iteration",
    "C21_front_back",
    "C21_disjoint_untouched",
    "C21_move"
   ],
   "note": "explicit heap, lists of any length"
  },
  {
   "property": "C22",
   "status": "partial",
   "theorems": [
    "C22_splice_correct_iff_partial",
    "C22_splice_empty_range",
    "C22_splice_prefix_then_clear",
    "C22_splice_refuted"
   ],
   "note": "False as stated; proved exactly when splice is correct (iff), and that the use made of it by static_thread_pool is"
  },
  {
   "property": "C23",
   "status": "proved",
   "theorems": [
    "C23_push_reports_empty",
    "C23_pop_returns_contents",
    "C23_structure",
    "C23_conservation",
    "C23_exactly_once_at_rest",
    "C23_never_stuck",
    "C23_failed_push_reports_empty"
   ],
   "note": "pointer-level, node reuse (ABA) included, any number of threads; both the stdexec and the exec queue"
  },
  {
   "property": "C24",
   "status": "proved",
   "theorems": [
    "C24_fifo",
    "C24_never_stub",
    "C24_null_only_if_empty_or_push_in_progress",
    "C24_pop_when_quiet",
    "C24_push_false_nonempty",
    "C24_push_true_not_empty_refuted"
   ],
   "note": "pointer-level model, any number of producers; also: push_back's false result means the queue was non-empty (the converse is refuted)"
  },
  {
   "property": "C25",
   "status": "proved",
   "theorems": [
    "C25_operations_succeed",
    "C25_front_is_minimum",
    "C25_links",
    "C25_keys_kept",
    "C25_drain_sorted"
   ],
   "note": "pointer-level model of every intrusive_heap operation; refinement to a complete ordered tree; all sizes, keys and histories. Sequential (the class is not thread safe)"
  },
  {
   "property": "C26",
   "status": "proved",
   "theorems": [
    "C26_linearizable",
    "C26_thief_returns_claim",
    "C26_each_task_once",
    "C26_at_most_once",
    "C26_pop_null_means_empty",
    "C26_push_accounting",
    "C26_push_refuses_only_if_full",
    "C26_owner_waits_only_for_thieves",
    "C26_pop_after_push_not_null"
   ],
   "note": "bwos::lifo_queue with one owner and any number of thieves, any number of blocks and block size, rounds modulo 2^32; sequentially consistent interleavings of the atomic operations (the C++ relaxed/acquire orders are not modelled)"
  },
  {
   "property": "C27",
   "status": "proved",
   "theorems": [
    "C27_join_waits_for_all",
    "C27_every_join_completes",
    "C27_never_stuck",
    "C27_joined_scope_is_quiet",
    "C27_one_of_two_joins_not_enough_refuted"
   ],
   "note": "counting scopes: any number of threads, associations and join operations, every interleaving of atomic steps incl. spurious CAS failures. The refuted theorem shows that with several join operations the completion of one does not yet make destruction safe."
  },
  {
   "property": "C28",
   "status": "proved",
   "theorems": [
    "C28_closed_scope_refuses",
    "C28_failure_has_a_reason",
    "C28_count_bounded",
    "C28_associate_releases_once",
    "C28_child_runs_only_associated",
    "C28_failed_association_stops",
    "C28_start_runs_or_stops",
    "C28_union_members",
    "C28_association_outlives_child",
    "C28_association_outlives_sender_refuted"
   ],
   "note": "scope word in ScopeModel, associate sender in AssociateModel. The refuted theorem: if connect throws, the wrapped sender is destroyed after its association was released."
  },
  {
   "property": "C29",
   "status": "proved",
   "theorems": [
    "C29_destructor",
    "C29_destructor_user"
   ],
   "note": "destructor terminates exactly unless unused, unused-and-closed or joined; the state machine of [exec.simple.counting] is in ScopeSpec"
  },
  {
   "property": "C30",
   "status": "partial",
   "theorems": [
    "C30_no_use_after_free_partial",
    "C30_completed_once_with_result_partial",
    "C30_nothing_lost_partial",
    "C30_sync_stop_refuted"
   ],
   "note": "Proved for every interleaving in which the spawned operation does not complete synchronously inside the canceller's request_stop on a foreign thread. In that case the statement is false of the code: the state is used after it was destroyed (C30_sync_stop_refuted)."
  },
  {
   "property": "C31",
   "status": "proved",
   "theorems": [
    "C31_when_empty_only_when_empty",
    "C31_at_most_once",
    "C31_nested_once",
    "C31_count_exact",
    "C31_terminates",
    "C31_nobody_forgotten"
   ],
   "note": "async_scope nest/when_empty: any number of nested and when_empty operations, any interleaving; safety (emptiness instant, last access to the scope before the notification), at most once, exact count, termination and absence of lost waiters. The wrapped operation's own completion is its own contract. async_scope::spawn / spawn_future are not in this model."
  },
  {
   "property": "C32",
   "status": "proved",
   "theorems": [
    "C32_upstream_once",
    "C32_complete_once",
    "C32_value",
    "C32_nobody_forgotten",
    "C32_terminates",
    "C32_no_use_after_free",
    "C32_freed_once",
    "C32_op_alive",
    "C32_stop_only_when_unwanted",
    "C32_last_consumer_stops_upstream_partial",
    "C32_lost_stop_refuted"
   ],
   "note": "Any number of copies/consumers, any interleaving: upstream at most once; each started consumer at most once and, since every run is finite and in a quiescent state whose upstream has completed nobody waits, exactly once; with upstream's result or set_stopped (only if its own stop token was triggered); no access to the shared state after it is freed, freed once. Beyond the claim: when the last consumer is abandoned alone upstream is asked to stop (_partial: not when two are abandoned concurrently, C32_lost_stop_refuted)."
  },
  {
   "property": "C33",
   "status": "partial",
   "theorems": [
    "C33_eager",
    "C33_abandoned",
    "C33_assign_refuted",
    "C32_freed_once",
    "C32_no_use_after_free",
    "C32_complete_once",
    "C32_value",
    "C32_nobody_forgotten"
   ],
   "note": "Eager start, freed exactly once (C32 theorems cover es_reach too); destroying the unconnected sender or its operation, or cancelling it, requests stop of a running upstream. Missing: false when the sender is dropped by being overwritten (defaulted operator= releases the state without __detach): C33_assign_refuted."
  },
  {
   "property": "C34",
   "status": "partial",
   "theorems": [
    "C34_completes_once_partial",
    "C34_number_of_completions",
    "C34_infallible_children_once",
    "C34_outcome",
    "C34_children_asked_to_stop",
    "C34_no_access_after_completion",
    "C34_no_deadlock",
    "C34_completes_once_refuted"
   ],
   "note": "exactly-once is false of the code: if the parent's stop callback runs between the last child's decrement of the count and the destruction of the callback, the receiver is completed twice (C34_completes_once_refuted); proved: exactly once in all other executions, and the exact number of completions in all"
  },
  {
   "property": "C35",
   "status": "partial",
   "theorems": [
    "when_any_first_result",
    "when_any_winner_asks_others_to_stop",
    "C35_number_of_completions",
    "C35_completes_once_partial",
    "C35_outcome",
    "C35_no_access_after_completion",
    "C35_no_deadlock",
    "C35_completes_once_refuted"
   ],
   "note": "exactly-once is false of the code: same race as in when_all between the last child's arrival and the stop callback (C35_completes_once_refuted); proved: exactly once in all other executions, the exact number of completions in all, and the outcome of each"
  },
  {
   "property": "C36",
   "status": "proved",
   "theorems": [
    "C36_even_share",
    "C36_every_index_in_one_share"
   ],
   "note": "all operations modulo 2^64"
  },
  {
   "property": "C37",
   "status": "proved",
   "theorems": [
    "bulk_calls_each_index_once",
    "C37_bulk",
    "C37_bulk_unchunked",
    "C37_bulk_chunked",
    "C37_unchunked_negative_shape_refuted",
    "C37_pool_no_index_twice",
    "C37_pool_completes_once",
    "C37_pool_success",
    "C37_pool_error",
    "C37_pool_no_deadlock"
   ],
   "note": "shape >= 0 as asserted; the sequential default implementations and the thread pool's; bulk_unchunked with a negative shape does not terminate (refuted)"
  },
  {
   "property": "C38",
   "status": "proved",
   "theorems": [
    "C38_asleep_means_no_work",
    "C38_asleep_means_not_stopped",
    "C38_wakeup_delivered",
    "C38_at_most_once",
    "C38_queue_index",
    "C38_quiescent",
    "C38_not_lost",
    "C38_exit_only_after_stop",
    "C38_active_count",
    "C38_worker_progress",
    "C38_notify_progress"
   ],
   "note": "worker loop, queues and sleep protocol of static_thread_pool, any number of workers, clients and remote queues, spurious wake-ups and CAS failures; local queue abstracted by what C26 proves; C38_stop_drains_refuted shows that tasks submitted before request_stop may never run"
  },
  {
   "property": "C39",
   "status": "proved",
   "theorems": [
    "C39_executed_once",
    "C39_all_executed_on_return",
    "C39_deferred_fifo",
    "C39_none_left",
    "C39_bounded_recursion",
    "C39_progress",
    "C39_outermost_limits",
    "C39_signal",
    "C39_outermost_never_inlines"
   ],
   "note": "arbitrary user code on one thread; finding: nested operations are never inlined in the outermost completion because __recursion_origin_ stays 0"
  },
  {
   "property": "C40",
   "status": "proved",
   "theorems": [
    "C40_result",
    "C40_blocks_until_completion",
    "C40_completer_done_at_return",
    "C40_returns"
   ],
   "note": "on top of the run_loop model; C40_loop_used_after_return_refuted: sync_wait may return while another thread is still about to notify the loop"
  },
  {
   "property": "C41",
   "status": "proved",
   "theorems": [
    "C41_common_promises",
    "C41_order_independent",
    "C41_same_members",
    "C41_upper_bound",
    "C41_least"
   ],
   "note": "__common over any number of senders promises exactly what all of them promise, is order independent, and is the least upper bound w.r.t. what completions a behaviour allows."
  },
  {
   "property": "C42",
   "status": "partial",
   "theorems": [
    "C42_leftmost_wins",
    "C42_no_answer",
    "C42_fwd_env",
    "C42_join",
    "C42_stack",
    "C42_only_forwarding",
    "C42_unstoppable",
    "C42_default_env_forwards_all_refuted"
   ],
   "note": "Leftmost-wins and the complete characterisation of what a child sees below any stack of adaptors are proved. 'Only forwarding queries' holds for the adaptors that change the environment (write_env, when_all, stop_when, sequence, finally, let's second child); it is false of the code for the adaptors with the default environment (then, bulk, continues_on, let's first child), which pass the receiver's environment through unchanged (refuted theorem)."
  },
  {
   "property": "C43",
   "status": "proved",
   "theorems": [
    "C43_no_access_after_deletion",
    "C43_deleted_at_most_once",
    "C43_not_deleted_while_referenced",
    "C43_no_leak",
    "C43_no_leak_idle",
    "C43_word",
    "C43_is_set",
    "C43_progress"
   ],
   "note": "Any number of objects, pointer variables and threads; SC interleaving semantics; reference count overflow of the 64-bit word is out of scope."
  },
  {
   "property": "C44",
   "status": "partial",
   "theorems": [
    "C44_start_done_at_return_partial",
    "C44_access_after_return_refuted"
   ],
   "note": "False as stated: run() can return while a start() on another thread has yet to call notify_one on the loop's queue; proved that notify_one is the only outstanding access"
  },
  {
   "property": "C45",
   "status": "partial",
   "theorems": [
    "C45_built_truthful_partial",
    "C45_value_truthful_partial",
    "C45_affine_returns_home",
    "C45_affine_inline_true",
    "C45_let_refuted",
    "C45_affine_of_let_refuted",
    "C45_affine_always_async_refuted",
    "C45_sequence_error_refuted",
    "C45_when_all_error_refuted"
   ],
   "note": "Proved for every sender built from just/schedule/then/upon_*/sequence/when_all/continues_on/starts_on/bulk and user senders with uniform channels (all channels), and for the value channel with user senders honest per channel. The full statement is false of the code: let_* forwards its first child's behaviour (inline claimed, completes elsewhere later), affine claims always-asynchronous for an inline|affine child, sequence/when_all look at one channel only (refutations proved)."
  },
  {
   "property": "C46",
   "status": "partial",
   "theorems": [
    "C46_await_truthful_safe_partial",
    "C46_await_built_safe_partial",
    "C46_await_let_refuted"
   ],
   "note": "Proved for every awaited sender whose attributes are true (in particular all compositions of C45_built_truthful_partial). False of the code for let_value(just(), f): the awaiter destroys the operation right after start although it is still pending (C46_await_let_refuted)."
  },
  {
   "property": "C47",
   "status": "partial",
   "theorems": [
    "C47_once",
    "C47_not_early",
    "C47_stopped_only_if_requested",
    "C47_stopped_before_start",
    "C47_not_used_after_completion",
    "C47_completes_in_order",
    "C47_due_operations_complete",
    "C47_eventually",
    "C47_lost_at_shutdown_refuted",
    "C47_lost_wakeup_refuted",
    "C47_stop_lost_refuted",
    "C47_closed_accepts_nothing",
    "C47_started_after_shutdown"
   ],
   "note": "Proved: once, not early, stopped only if requested, stopped whenever stop was requested before start(), no use after completion, order, every started operation completes when time passes. The rest is false of the code: commands still queued when the context is destroyed are never completed (C47_lost_at_shutdown_refuted), the wake-up of the sleeping thread can be lost (C47_lost_wakeup_refuted), and a stop request made during start() can be lost (C47_stop_lost_refuted)."
  },
  {
   "property": "C48",
   "status": "partial",
   "theorems": [
    "C48_resumed_once",
    "C48_result",
    "C48_no_use_after_resume",
    "C48_body_exclusive",
    "C48_resumed",
    "C48_deadlock_refuted"
   ],
   "note": "All proved except that completing an awaited operation never blocks for ever, which is false: a completion on another thread spins until start() has returned, so two operations whose start() each completes the other one deadlock (C48_deadlock_refuted)."
  },
  {
   "property": "C49",
   "status": "partial",
   "theorems": [
    "C49_once",
    "C49_done_last",
    "C49_completion",
    "C49_error_not_lost",
    "C49_next_once",
    "C49_siblings_stopped_partial",
    "C49_stop_forwarded",
    "C49_progress_partial",
    "C49_lib_terminates",
    "C49_dangling_partial",
    "C49_item_fails_refuted",
    "C49_dangling_refuted",
    "C49_siblings_stopped_refuted"
   ],
   "note": "Full statement is false of the code. Proved: at most one completion, last, the completion is the one the errors call for, next receivers complete exactly once, stop requests are forwarded, progress if every item of the outer sequence delivers a nested sequence, siblings are stopped if the receiver's token is stoppable. Refuted: an item of the outer sequence that fails or is stopped never completes its next receiver, so the merge never completes (merge_each.hpp L1027-1047); a nested value's error is read after its next receiver was completed (L576-577), possibly dangling; with an unstoppable receiver token request_stop is a no-op (L126-133), siblings are never stopped."
  },
  {
   "property": "C50",
   "status": "partial",
   "theorems": [
    "C50_once",
    "C50_result",
    "C50_freed_once",
    "C50_freed_late",
    "C50_completes",
    "C50_no_leak",
    "C50_terminates",
    "C50_no_terminate",
    "C50_uaf_partial",
    "C50_uaf_refuted",
    "C50_scope_stop",
    "C50_stop_refuted"
   ],
   "note": "async_scope::spawn_future: at most one completion, never before the spawned operation has completed, with its result or stopped if the consumer requested stop; the shared state is released exactly once and late enough; nothing is lost and the library goes idle. Refuted of the code: the consumer's stop request never reaches the operation (only the scope's does), and the consumer's stop callback can use the released state when an unstarted operation is dropped."
  },
  {
   "property": "C51",
   "status": "partial",
   "theorems": [
    "C51_task_partial",
    "C51_frames_before_completion_refuted"
   ],
   "note": "Everything except the last clause: if the task is stopped, the frame of a cleanup coroutine is destroyed after the receiver has been completed (refuted by example). The specification (TaskSpec.eval) is an ordinary recursive evaluator; every execution of the heap/continuation machine is proved to end as it says, with every frame destroyed exactly once. Not modelled: change of scheduler (C31, C46), threads (C48), allocation failure."
  },
  {
   "property": "C52",
   "status": "partial",
   "theorems": [
    "iouring_at_most_once_partial",
    "iouring_no_use_after_completion_partial",
    "iouring_stopped_only_if_requested",
    "iouring_value_only_after_deadline",
    "iouring_completes_on_runner_partial",
    "iouring_closed_completes_schedule",
    "iouring_no_lost_operation_partial",
    "iouring_refused_schedule_after_never_completes",
    "iouring_run_sender_completes_once_refuted",
    "iouring_completes_on_runner_refuted",
    "iouring_closed_completes_schedule_after_refuted",
    "iouring_closed_completes_schedule_after_drain_refuted",
    "iouring_refused_completes_refuted",
    "iouring_no_double_link_refuted",
    "iouring_second_run_refuted",
    "iouring_second_run_until_empty_returns_refuted",
    "iouring_run_until_empty_drains_refuted",
    "iouring_stop_wakes_runner_refuted",
    "iouring_no_lost_operation_small_ring_refuted",
    "iouring_off_runner_means_stopped"
   ],
   "note": "Full statement is false of the code. Proved for all interleavings and ring sizes: at most one completion, its reason, its deadline; for a context run once and operations not stopped by both sides: no use after completion; on the runner until the context is stopped; after the close every schedule() operation has completed; no submitted operation is forgotten if the rings have room. The _refuted theorems give executions in which the unrestricted statements fail."
  },
  {
   "property": "C53",
   "status": "partial",
   "theorems": [
    "fused_called_once",
    "fused_called_only_if_requested",
    "fused_request_calls",
    "fused_no_use_after_destruction",
    "fused_destructor_waits",
    "fused_not_called_after_destruction",
    "fused_destructor_progress",
    "fused_request_waits_for_function_refuted"
   ],
   "note": "The last clause is false of the code: the request of the second source returns while the callback still runs on the thread of the first (refuted). The rest is proved for every interleaving; the two sources are modelled by what C15-C18 prove of inplace_stop_source."
  },
  {
   "property": "C54",
   "status": "partial",
   "theorems": [
    "iterate_completes_once",
    "iterate_in_order_partial",
    "iterate_value_means_all_partial",
    "iterate_completion_reason",
    "iterate_terminates_partial",
    "iterate_no_dangling_partial",
    "pipeline_result",
    "pipeline_progress",
    "pipeline_error_not_lost_refuted",
    "iterate_in_range_refuted",
    "iterate_offers_once_refuted",
    "iterate_no_dangling_refuted"
   ],
   "note": "order, range and termination need a receiver that runs each item exactly once; an owning range must outlive the operation; a stop request may hide the error of a failing item. The unrestricted statements are refuted."
  },
  {
   "property": "C55",
   "status": "partial",
   "theorems": [
    "any_value_semantics_partial",
    "any_lifetimes_partial",
    "any_no_leak_partial",
    "any_throws_only_if_partial",
    "any_in_buffer_fits_partial",
    "any_aligned_partial",
    "any_lifetimes_refuted",
    "any_aligned_refuted"
   ],
   "note": "Every program over any number of anys refines the specification of a value, with every throw point. The unrestricted statements are false of the code and refuted: a function that constructs the value in the buffer and throws leaves the vtable pointer behind, which the destructor takes for an object (any_sender's operation state when connect throws); __is_small ignores alignment."
  },
  {
   "property": "C56",
   "status": "partial",
   "theorems": [
    "default_chunked_conforming",
    "default_unchunked_conforming",
    "sequential_conforming",
    "bulk_visits_each_index_once_partial",
    "parallel_bulk_sequential_in_order",
    "bulk_completes_once_partial",
    "bulk_right_signal",
    "schedule_completes_once",
    "schedule_right_signal",
    "task_bulk_sequential_refuted",
    "task_bulk_chunked_sequential_refuted",
    "task_bulk_throw_refuted",
    "parallel_bulk_throw_refuted",
    "task_alloc_refuted"
   ],
   "note": "Proved for every conforming backend and interleaving, on parallel_scheduler for every policy, on task_scheduler for parallel policies and functions that do not throw. The rest is false of the code and refuted: with a sequential policy task_scheduler's bulk visits indices repeatedly and beyond the shape; a throwing function completes the receiver with an error and again with values on task_scheduler, terminates on parallel_scheduler; failed allocation reaches unreachable() on task_scheduler."
  },
  {
   "property": "C57",
   "status": "partial",
   "theorems": [
    "placement_fits",
    "placement_uses_storage",
    "bulk_no_leak_partial",
    "schedule_no_leak_partial",
    "objects_are_valid",
    "parallel_leak_refuted"
   ],
   "note": "Placement, exclusivity and validity proved on every path; that nothing leaks on every path of task_scheduler and on the paths of parallel_scheduler where the backend was reached. On the others it is false and refuted: __system_op and __system_bulk_op have no destructor."
  },
  {
   "property": "C58",
   "status": "partial",
   "theorems": [
    "bridge_completes_once",
    "bridge_no_use_after_completion_partial",
    "bridge_stop_only_if_requested",
    "bridge_stop_delivered",
    "bridge_no_deadlock",
    "scheduler_stop_partial",
    "bridge_no_use_after_completion_refuted",
    "scheduler_stop_refuted"
   ],
   "note": "All interleavings; use after completion excluded for children that do not complete inside their stop callback. For those that do it is false of the code and refuted: the completion destroys the stop source whose request_stop is still running. task_scheduler does not forward stop requests of other token types: refuted."
  },
  {
   "property": "C59",
   "status": "partial",
   "theorems": [
    "backend_current_partial",
    "backend_origin",
    "backend_previous_factory",
    "backend_lock",
    "backend_single_instance_refuted",
    "backend_replacement_undone_refuted"
   ],
   "note": "As stated false of the code: two overlapping first uses return different instances (backend_single_instance_refuted), and a first get in progress undoes a replacement that completes meanwhile, for good (backend_replacement_undone_refuted). Proved: a get that no replacement overlaps returns the current instance when the first operation has returned before another is called and replacements do not overlap each other; origins of instances and factories; previous factory; mutual exclusion and absence of deadlock."
  },
  {
   "property": "C60",
   "status": "partial",
   "theorems": [
    "start_now_wait_partial",
    "start_now_once",
    "start_now_all_joined",
    "start_now_two_waiters_refuted"
   ],
   "note": "Proved for one operation of async_wait (exactly once, after all senders, no later access to the storage); at-most-once and nothing-forgotten hold for any number. With a second operation the statement is false of the code: it completes immediately while the work is running (start_now_two_waiters_refuted)."
  },
  {
   "property": "C61",
   "status": "partial",
   "theorems": [
    "detached_safe_partial",
    "detached_balanced_partial",
    "detached_alive_until_completion_partial",
    "detached_throw_partial",
    "spawn_freed_before_join",
    "detached_submit_inline_refuted",
    "let_submit_exception_lost_refuted",
    "let_connect_exception_kept"
   ],
   "note": "Partial because the full statement is false of the code: for a sender whose submit() returns an object and which completes before submit() returns, the result is constructed in freed memory (detached_submit_inline_refuted), and let_value loses an exception thrown by such a submit() when nothing else may throw (let_submit_exception_lost_refuted). With the proviso that such a sender completes after submit() has returned, everything else is proved."
  },
  {
   "property": "C62",
   "status": "partial",
   "theorems": [
    "adaptor_blocks_partial",
    "adaptor_disjoint_partial",
    "adaptor_keeps_contents_partial",
    "adaptor_gives_back_partial",
    "adaptor_gives_back_own_partial",
    "adaptor_overflow_refuted"
   ],
   "note": "Partial because the full statement is false of the code: the size passed upstream is computed modulo 2^64, so a request that is too large takes a small block and writes outside of it instead of throwing (adaptor_overflow_refuted). For requests whose size, alignment and hidden pointer fit in 64 bits everything is proved."
  },
  {
   "property": "C63",
   "status": "partial",
   "theorems": [
    "asio_safe_partial",
    "asio_once_partial",
    "asio_completes_partial",
    "asio_channel_partial",
    "asio_no_signal_after_completion_partial",
    "asio_no_deadlock_partial",
    "asio_inline_cancellation_refuted",
    "asio_throw_after_completion_refuted",
    "asio_overlap_refuted"
   ],
   "note": "Proved for environments in which the handler is not invoked or destroyed inside emit() or while another thread waits to run a function, and nothing throws after completion; without each of these hypotheses the statement is refuted: asio_inline_cancellation_refuted (mutex unlocked after destruction), asio_overlap_refuted (destroyed mutex locked), asio_throw_after_completion_refuted (exception stored into a destroyed operation state)."
  },
  {
   "property": "C64",
   "status": "partial",
   "theorems": [
    "pool_bulk_safe_partial",
    "pool_bulk_once",
    "pool_bulk_last",
    "pool_bulk_completes",
    "pool_bulk_value",
    "pool_bulk_error",
    "pool_bulk_calls",
    "pool_bulk_passes_on",
    "pool_bulk_no_deadlock",
    "pool_bulk_terminates",
    "pool_bulk_indices",
    "num_agents_min_partial",
    "dispatch_bulk_loop_refuted",
    "dispatch_bulk_wraps_refuted",
    "num_agents_narrow_refuted",
    "no_tasks_complete_refuted"
   ],
   "note": "False of the code for libdispatch (its submitting loop reads the operation after the completion; the 32-bit counter wraps) and for a narrow Shape (the parallelism is truncated): refuted. Otherwise proved for every schedule."
  },
  {
   "property": "C65",
   "status": "partial",
   "theorems": [
    "container_safe_partial",
    "content_destroyed_once",
    "content_is_held",
    "all_released",
    "index_is_right",
    "emplace_holds",
    "throw_valueless",
    "copy_keeps_type",
    "assign_copies",
    "self_assign_noop",
    "throw_after_destroy_refuted",
    "emplace_alias_refuted",
    "optional_reset_reentry_refuted",
    "variant_emplace_reentry_refuted",
    "copy_index_refuted"
   ],
   "note": "Proved for users described by polite in VariantSpec.v. Without those restrictions it is false of the code: five refutations (throw after inline destruction, aliasing emplace, re-entrant reset and emplace from the content's destructor, repeated types)."
  },
  {
   "property": "C66",
   "status": "partial",
   "theorems": [
    "winpool_schedule",
    "winpool_safe_partial",
    "winpool_once_partial",
    "winpool_completes_partial",
    "winpool_terminates_partial",
    "winpool_resources_partial",
    "winpool_channel_partial",
    "winpool_stop_before_start_partial",
    "winpool_stop_before_run_partial",
    "no_timer_timely",
    "winpool_timer_refuted"
   ],
   "note": "Proved without proviso for schedule(); for schedule_at/schedule_after under the proviso that the timer does not expire after a cancelling wait has returned. Without it the property is false of the code (winpool_timer_refuted): the wait does not disarm the timer, and the callback runs on the destroyed operation."
  },
  {
   "property": "C67",
   "status": "partial",
   "theorems": [
    "forkjoin_allowed",
    "forkjoin_at_most_once",
    "forkjoin_child_destroyed_once",
    "forkjoin_same_result",
    "forkjoin_completes_after_branches",
    "forkjoin_progress",
    "forkjoin_connect_throw_refuted",
    "forkjoin_connect_never_throws",
    "forkjoin_no_branch_refuted"
   ],
   "note": "Everything but the last sentence is proved. That sentence is false of the code: the constructor and connect are noexcept, so an exception thrown while connecting terminates the program; and fork_join with no closures completes with a value whatever the predecessor did."
  },
  {
   "property": "C68",
   "status": "partial",
   "theorems": [
    "ignoreall_once",
    "ignoreall_outcome",
    "ignoreall_success_iff",
    "ignoreall_items_done",
    "ignoreall_completes",
    "ignoreall_throwing_copy_refuted",
    "ignoreall_dropped_error_refuted"
   ],
   "note": "Everything but the last sentence is proved. That sentence is false of the code: __emplace is noexcept, so a throwing copy terminates; and when the sequence itself completes as stopped, the stored error is dropped."
  },
  {
   "property": "C69",
   "status": "partial",
   "theorems": [
    "sv_init_contents",
    "sv_erase_contents",
    "sv_plus_contents",
    "sv_erase_position_refuted",
    "sorted_unique",
    "canonical_spec",
    "canonical_same_iff",
    "canonical_idempotent",
    "function_store_load",
    "function_layout_disjoint",
    "function_factory_aligned",
    "function_overaligned_refuted"
   ],
   "note": "The alignment claim is false for factories aligned to more than a pointer: the constraint checks only the size (function_overaligned_refuted, alignment 16 and size 16: accepted and misplaced). Proved for alignments dividing that of a pointer. The erase of the vector returns end(), unlike the standard containers (sv_erase_position_refuted)."
  },
  {
   "property": "C70",
   "status": "partial",
   "theorems": [
    "submission_ring_fifo",
    "submission_ring_drained",
    "submission_ring_visible",
    "submission_ring_assert",
    "submit_call_spec",
    "stopped_submits_only_cancellations_refuted",
    "completion_ring_spec",
    "completion_ring_drained",
    "completion_ring_room"
   ],
   "note": "Everything about loss, duplication, order and overwriting is proved. The documented rule that a stopped context submits only cancellations is false: after a cancellation in a batch every later task of it is submitted (stopped_submits_only_cancellations_refuted); proved: nothing before the first cancellation is. Sequentially consistent executions."
  },
  {
   "property": "C71",
   "status": "proved",
   "theorems": [
    "slist_refines",
    "slist_history",
    "slist_remove_current",
    "slist_push_twice_refuted"
   ],
   "note": "Proved for histories in which an item is pushed only while in no list and no empty list is popped (the assertion of pop_front); pushing an item twice closes a cycle (slist_push_twice_refuted), which the class has no means to detect."
  },
  {
   "property": "C72",
   "status": "partial",
   "theorems": [
    "numa_choice_allowed",
    "numa_choice_fallback",
    "numa_round_robin",
    "numa_enqueue_allowed",
    "numa_bulk_constraints_refuted",
    "numa_bulk_all_once",
    "numa_victims",
    "numa_policy_blocks",
    "numa_policy_no_cpus_refuted",
    "numa_policy_big_index_refuted"
   ],
   "note": "False for batches from a thread that is not allowed: they are spread over all threads, allowed or not (numa_bulk_constraints_refuted). The policy divides by zero if no node's CPUs can be determined, and for indices from 2^31 chooses nodes without CPUs (both refuted). Placement only: stealing is not constrained by the code."
  },
  {
   "property": "C73",
   "status": "partial",
   "theorems": [
    "handle_releases_once_partial",
    "handle_valid_while_held_partial",
    "handle_no_leak_partial",
    "handle_move",
    "io_uring_ctor_no_leak",
    "io_uring_ctor_error_partial",
    "io_uring_setup_error_refuted",
    "handle_reset_self_refuted",
    "handle_reset_other_refuted",
    "region_failed_size_refuted"
   ],
   "note": "Proved for every program over these objects, every choice of numbers by the kernel and every interleaving with foreign calls, provided no raw descriptor of an object is handed to reset; the constructor of the io_uring context releases everything for every combination of failing calls. The full statement is false: reset(native_handle()) closes the descriptor and keeps it (refuted), a region from a failed mmap keeps its size (refuted), and a failing io_uring_setup is always reported as EPERM because -rc is used where errno is meant (refuted)."
  },
  {
   "property": "C74",
   "status": "partial",
   "theorems": [
    "schedule_after_fallback_partial",
    "schedule_at_fallback_partial",
    "fallback_defined",
    "filetime_add_sub",
    "filetime_exact_partial",
    "filetime_rounds_down",
    "filetime_now",
    "schedule_after_max_refuted",
    "schedule_at_min_refuted",
    "schedule_after_adjusted_refuted",
    "schedule_at_adjusted_refuted",
    "filetime_before_epoch_refuted",
    "filetime_difference_refuted",
    "filetime_truncates_refuted"
   ],
   "note": "Proved for every steady clock, every delay and every argument for which the sum or difference fits 64 bits; fallback_defined says exactly when it does. The full statement is false: the longest duration and the earliest time point overflow (refuted), a clock that is adjusted makes both operations early (refuted), filetime time points wrap below the epoch, exceed max() and have undefined differences (refuted), and durations below a tick are dropped (refuted)."
  },
  {
   "property": "C75",
   "status": "partial",
   "theorems": [
    "frame_blocks_exact",
    "frame_memory_proper_partial",
    "frame_no_leak",
    "frame_delete",
    "frame_overaligned_allocator_refuted"
   ],
   "note": "Proved for every execution of any number of tasks with any allocators of any size up to 2^32 bytes; alignment is proved up to 16 bytes. The full statement is false for allocators that need more: their copy is misaligned (refuted)."
  },
  {
   "property": "C76",
   "status": "partial",
   "theorems": [
    "materialize_says",
    "materialize_injective",
    "materialize_signatures",
    "dematerialize_materialize",
    "materialize_dematerialize",
    "dematerialize_signatures",
    "just_from_once_partial",
    "just_from_signatures_partial",
    "unless_stop_right",
    "just_from_throw_after_refuted",
    "just_from_silent_refuted",
    "just_from_undeclared_refuted",
    "just_from_noexcept_refuted"
   ],
   "note": "materialize, dematerialize and unless_stop_requested: proved in full for all completions and signature lists. just_from: proved for functions that call the sink once and return or throw without having called it, and that declare what they do; without that the statement is false (refuted: a function that throws after the sink was called completes the receiver twice, one that does not call it never, one that gives something undeclared or is noexcept only for the probe completes with an undeclared signature)."
  },
  {
   "property": "C77",
   "status": "partial",
   "theorems": [
    "xorshift_injective",
    "xorshift_never_sticks_partial",
    "xorshift_no_tail",
    "xorshift_range",
    "xorshift_upper_half",
    "xorshift_discard",
    "xorshift_zero_refuted",
    "xorshift_seed_refuted"
   ],
   "note": "Not true of the code: seed 0 gives only zeros for ever, and the random device can produce it; the two random numbers overlap in one bit, so different ones give the same state and the top bit of a seed is never set. Not modelled: the length of the cycle (statistical quality)."
  }
 ]
}