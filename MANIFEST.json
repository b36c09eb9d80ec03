{
 "claims": [
  {
   "property": "C01",
   "status": "proved",
   "theorems": [
    "C01_memory_safety"
   ],
   "note": "All reachable states, all programs, with and without external loop quits; UB kinds UDeadTask (user touches destroyed Task object), UNotCoroutine (rejected by compiler), UUncaught (std::terminate), ULazyNull/ULazyReawait (C14/C15), UEmptyOptional/UDanglingCtx (C22) are not claimed here."
  },
  {
   "property": "C02",
   "status": "proved",
   "theorems": [
    "C02_exists_iff_not_destroyed",
    "C02_destroyed_only_when_done",
    "C02_freed_when_done",
    "C02_destroyed_once"
   ],
   "note": ""
  },
  {
   "property": "C03",
   "status": "proved",
   "theorems": [
    "C03_no_lost_wakeup"
   ],
   "note": ""
  },
  {
   "property": "C04",
   "status": "proved",
   "theorems": [
    "C04_fifo",
    "C04_not_before_finish",
    "C04_all_resumed"
   ],
   "note": ""
  },
  {
   "property": "C05",
   "status": "proved",
   "theorems": [
    "C05_value",
    "C05_exception",
    "C05_nothing_before_finish"
   ],
   "note": ""
  },
  {
   "property": "C06",
   "status": "partial",
   "theorems": [
    "C06_same_value_partial",
    "C06_same_value_refuted"
   ],
   "note": "REFUTED as stated: the code violates it (witness in the *_refuted theorem). C06_same_value_partial: holds when moving leaves the value unchanged (e.g. trivially copyable types); C05_value gives the exact value after i moves in general."
  },
  {
   "property": "C07",
   "status": "proved",
   "theorems": [
    "C07_starts_at_once",
    "C07_caller_waits"
   ],
   "note": ""
  },
  {
   "property": "C08",
   "status": "proved",
   "theorems": [
    "C08_await_finished"
   ],
   "note": ""
  },
  {
   "property": "C09",
   "status": "proved",
   "theorems": [
    "C09_empty_task_hangs",
    "C09_forever"
   ],
   "note": ""
  },
  {
   "property": "C10",
   "status": "proved",
   "theorems": [
    "C10_move_construct",
    "C10_self_assign",
    "C10_assign_shared",
    "C10_assign",
    "C10_refcount_exact"
   ],
   "note": "C10_assign covers all cases, including destruction of the old coroutine and its parameters; C10_assign_shared is the exact-state version when the old coroutine survives."
  },
  {
   "property": "C11",
   "status": "proved",
   "theorems": [
    "C11_is_ready",
    "C11_stable"
   ],
   "note": ""
  },
  {
   "property": "C12",
   "status": "proved",
   "theorems": [
    "C12_lazy_start",
    "C12_first_await_starts"
   ],
   "note": ""
  },
  {
   "property": "C13",
   "status": "partial",
   "theorems": [
    "C13_lazy_drop_frees_refuted",
    "C13_leaks_forever"
   ],
   "note": "REFUTED as stated: the code violates it (witness in the *_refuted theorem). C13_leaks_forever: in every execution the orphaned frame is never destroyed nor started."
  },
  {
   "property": "C14",
   "status": "partial",
   "theorems": [
    "C14_lazy_null_refuted"
   ],
   "note": "REFUTED as stated: the code violates it (witness in the *_refuted theorem)."
  },
  {
   "property": "C15",
   "status": "partial",
   "theorems": [
    "C15_lazy_reawait_refuted"
   ],
   "note": "REFUTED as stated: the code violates it (witness in the *_refuted theorem)."
  },
  {
   "property": "C16",
   "status": "proved",
   "theorems": [
    "C16_C17_then",
    "C16_completion",
    "C16_task_callback",
    "C16_already_finished",
    "C16_not_yet_finished"
   ],
   "note": ""
  },
  {
   "property": "C17",
   "status": "proved",
   "theorems": [
    "C16_C17_then",
    "C17_error_callback_result"
   ],
   "note": ""
  },
  {
   "property": "C18",
   "status": "proved",
   "theorems": [
    "C18_then_move",
    "C18_param_alive",
    "C18_param_released"
   ],
   "note": ""
  },
  {
   "property": "C19",
   "status": "proved",
   "theorems": [
    "C19_call_pending",
    "C19_call_finished",
    "C19_call_nothing",
    "C19_future_pending",
    "C19_future_outcome",
    "C19_future_ready",
    "C19_connect",
    "C19_context"
   ],
   "note": ""
  },
  {
   "property": "C20",
   "status": "proved",
   "theorems": [
    "C20_waitfor_outcome",
    "C20_waitfor_safe"
   ],
   "note": "the outcome is the n-th delivered one; it equals the co_returned outcome when the caller is the first consumer (n = 0), cf. C06."
  },
  {
   "property": "C21",
   "status": "proved",
   "theorems": [
    "C21_no_loop_for_finished",
    "C21_synchronous"
   ],
   "note": ""
  },
  {
   "property": "C22",
   "status": "partial",
   "theorems": [
    "C22_quit_refuted",
    "C22_quit_void_refuted"
   ],
   "note": "REFUTED as stated: the code violates it (witness in the *_refuted theorem). C20_waitfor_safe is the positive part: without external quits neither UB can happen."
  },
  {
   "property": "C23",
   "status": "proved",
   "theorems": [
    "C23_foreach_gets_all",
    "C23_foreach_gets_prefix",
    "C23_deref_is_last_yield",
    "C23_body_runs_as_written"
   ],
   "note": "foreach theorems cover bodies that only co_yield and have effects of their own (predicate yields); C23_body_runs_as_written and C23_deref_is_last_yield cover arbitrary bodies, including ones that use other generators."
  },
  {
   "property": "C24",
   "status": "proved",
   "theorems": [
    "C24_lazy_start",
    "C24_resumed_only_on_demand",
    "C24_one_step_per_increment",
    "C24_one_step_per_begin",
    "C24_lockstep_count"
   ],
   "note": ""
  },
  {
   "property": "C25",
   "status": "proved",
   "theorems": [
    "C25_increment_rethrows",
    "C25_begin_rethrows",
    "C25_only_thrown_exceptions",
    "C25_increment_of_end"
   ],
   "note": "C25_begin_rethrows assumes that the body did not move its own Generator object away while running."
  },
  {
   "property": "C26",
   "status": "proved",
   "theorems": [
    "C26_destroyed_once",
    "C26_one_owner",
    "C26_destroyed_with_owner",
    "C26_owner_destroys",
    "C26_locals_destroyed"
   ],
   "note": "Coroutines whose owner was move-assigned to are excluded: see C27."
  },
  {
   "property": "C27",
   "status": "partial",
   "theorems": [
    "C27_async_assign_releases_refuted",
    "C27_async_self_assign_refuted",
    "C27_async_assigned_over_leaks",
    "C27_assign_releases_refuted",
    "C27_self_assign_refuted",
    "C27_assigned_over_leaks"
   ],
   "note": "REFUTED as stated: the code violates it (witness in the *_refuted theorem). C27_assigned_over_leaks / C27_async_assigned_over_leaks: in every program the old coroutine of a move-assignment target is never destroyed."
  },
  {
   "property": "C28",
   "status": "partial",
   "theorems": [
    "C28_begin_empty_refuted",
    "C28_begin_finished_refuted",
    "C28_stale_iterator_refuted",
    "C28_begin_defined_iff"
   ],
   "note": "REFUTED as stated: the code violates it (witness in the *_refuted theorem). C28_begin_defined_iff states exactly when begin() is defined."
  },
  {
   "property": "C29",
   "status": "proved",
   "theorems": [
    "C29_foreach_gets_all",
    "C29_foreach_plain_producer",
    "C29_one_completion_per_stop",
    "C29_completion_follows_stop",
    "C29_no_lost_wakeup",
    "C29_body_runs_as_written",
    "C29_consumer_runs_as_written"
   ],
   "note": "C29_foreach_* cover QCORO_FOREACH loops whose body has effects and own co_awaits; C29_one_completion_per_stop, C29_completion_follows_stop and C29_no_lost_wakeup cover arbitrary programs."
  },
  {
   "property": "C30",
   "status": "proved",
   "theorems": [
    "C30_runs_only_when_awaited",
    "C30_lockstep",
    "C30_deref_is_last_yield",
    "C30_value_stays_valid"
   ],
   "note": "The consumer may itself have been destroyed while it waited (then C32 applies)."
  },
  {
   "property": "C31",
   "status": "proved",
   "theorems": [
    "C31_increment_rethrows",
    "C31_begin_rethrows",
    "C31_exception_once",
    "C31_end_stays_end"
   ],
   "note": ""
  },
  {
   "property": "C32",
   "status": "partial",
   "theorems": [
    "C32_destroy_suspended_refuted",
    "C32_only_unsafe_awaits",
    "C32_safe_await_cancelled",
    "C32_nothing_after_destruction"
   ],
   "note": "REFUTED as stated: the code violates it (witness in the *_refuted theorem). C32_only_unsafe_awaits: in every program the only way to get there is destruction while awaiting something that keeps the raw handle (a Task)."
  },
  {
   "property": "C33",
   "status": "proved",
   "theorems": [
    "C33_resumes_with_first_emission",
    "C33_every_resumption_explained",
    "C33_no_bad_resume",
    "C33_delivered_by_event_loop"
   ],
   "note": ""
  },
  {
   "property": "C34",
   "status": "proved",
   "theorems": [
    "C34_signal_or_timeout",
    "C34_expiry_resumes"
   ],
   "note": ""
  },
  {
   "property": "C35",
   "status": "partial",
   "theorems": [
    "C35_ends_partial",
    "C35_destroyed_hangs",
    "C35_refuted"
   ],
   "note": "REFUTED as stated: the code violates it (witness in the *_refuted theorem)."
  },
  {
   "property": "C36",
   "status": "proved",
   "theorems": [
    "C36_exactly_once_in_order",
    "C36_nothing_withheld",
    "C36_pending_returned_at_once",
    "C36_next_emission_arrives",
    "C36_plain_consumer",
    "C36_end_after_everything"
   ],
   "note": "for every consumer and every history in which, once the consumer had to wait, nothing is delivered while it is suspended elsewhere (calm); C36_plain_consumer: this covers all consumers that only await the listener."
  },
  {
   "property": "C37",
   "status": "partial",
   "theorems": [
    "C37_enqueued_before_first_wait_partial",
    "C37_resumed_in_unrelated_await_refuted",
    "C37_emission_lost_refuted"
   ],
   "note": "REFUTED as stated: the code violates it (witness in the *_refuted theorem). C37_resumed_in_unrelated_await: whenever it happens in an otherwise calm history; C37_enqueued_before_first_wait: true as long as the consumer never had to wait for the listener."
  },
  {
   "property": "C38",
   "status": "proved",
   "theorems": [
    "C38_ends_after_quiet_period",
    "C38_ends_in_time",
    "C38_no_timeout_no_end"
   ],
   "note": "calm histories (see C36); C38_ends_in_time assumes that the object exists (else C73)."
  },
  {
   "property": "C39",
   "status": "partial",
   "theorems": [
    "C39_finished_generator_resumed_refuted",
    "C39_single_wait_partial",
    "C39_two_waits_refuted"
   ],
   "note": "REFUTED as stated: the code violates it (witness in the *_refuted theorem). C39_finished_generator_resumed: always, after two waits, if the generator outlives the first co_await after the timeout."
  },
  {
   "property": "C40",
   "status": "proved",
   "theorems": [
    "C40_result",
    "C40_others_rejected"
   ],
   "note": "argument lists as moc allows them (a private argument only in the last place); C40_others_rejected: all others do not compile."
  },
  {
   "property": "C41",
   "status": "proved",
   "theorems": [
    "C41_private_by_name",
    "C41_any_format"
   ],
   "note": ""
  },
  {
   "property": "C42",
   "status": "proved",
   "theorems": [
    "C42_answers",
    "C42_no_suspend",
    "C42_resumed",
    "C42_suspends"
   ],
   "note": "all interleavings of any number of awaiters with the computing thread, also between await_ready() and await_suspend(); results, void and takeResult()."
  },
  {
   "property": "C43",
   "status": "proved",
   "theorems": [
    "C43_co_await_timer",
    "C43_co_await_null_timer",
    "C43_co_await_timer_ends",
    "C43_waitForTimeout",
    "C43_waitForTimeout_ends"
   ],
   "note": ""
  },
  {
   "property": "C44",
   "status": "partial",
   "theorems": [
    "C44_not_early_partial",
    "C44_at_most_1ms_early_partial",
    "C44_on_time",
    "C44_until_steady",
    "C44_until_on_time",
    "C44_sleep_for_early_refuted"
   ],
   "note": "REFUTED as stated: the code violates it (witness in the *_refuted theorem). C44_not_early_partial: true for whole milliseconds below 2^31; else early by less than 1 ms (C44_at_most_1ms_early_partial), and for every such duration there is a history in which it is too early (C44_sleep_for_early_refuted)."
  },
  {
   "property": "C45",
   "status": "proved",
   "theorems": [
    "C45_read",
    "C45_read_ends",
    "C45_stream",
    "C45_co_await_device",
    "C45_co_await_device_ends"
   ],
   "note": ""
  },
  {
   "property": "C46",
   "status": "partial",
   "theorems": [
    "C46_ready_read_partial",
    "C46_ends",
    "C46_refuted"
   ],
   "note": "REFUTED as stated: the code violates it (witness in the *_refuted theorem)."
  },
  {
   "property": "C47",
   "status": "proved",
   "theorems": [
    "C47_bytes_written",
    "C47_write"
   ],
   "note": ""
  },
  {
   "property": "C48",
   "status": "partial",
   "theorems": [
    "C48_spins",
    "C48_waits_end_partial",
    "C48_refuted"
   ],
   "note": "REFUTED as stated: the code violates it (witness in the *_refuted theorem)."
  },
  {
   "property": "C49",
   "status": "proved",
   "theorems": [
    "C49_waitForConnected",
    "C49_waitForConnected_ends",
    "C49_waitForDisconnected",
    "C49_waitForDisconnected_ends",
    "C49_connectToHost"
   ],
   "note": ""
  },
  {
   "property": "C50",
   "status": "partial",
   "theorems": [
    "C50_hangs",
    "C50_refuted"
   ],
   "note": "REFUTED as stated: the code violates it (witness in the *_refuted theorem). C50_hangs: for every socket behaviour in which connected is not emitted any more."
  },
  {
   "property": "C51",
   "status": "proved",
   "theorems": [
    "C51_waitForConnected",
    "C51_waitForConnected_ends",
    "C51_waitForDisconnected",
    "C51_waitForDisconnected_ends",
    "C51_connectToServer"
   ],
   "note": ""
  },
  {
   "property": "C52",
   "status": "proved",
   "theorems": [
    "C52_co_await_reply",
    "C52_co_await_null_reply",
    "C52_co_await_reply_ends",
    "C52_waitForFinished",
    "C52_waitForFinished_ends"
   ],
   "note": ""
  },
  {
   "property": "C53",
   "status": "proved",
   "theorems": [
    "C53_waitForNewConnection",
    "C53_waitForNewConnection_ends",
    "C53_stream",
    "C53_at_most_once"
   ],
   "note": "C53_stream/C53_at_most_once for programs that accept in a loop while nobody else takes connections."
  },
  {
   "property": "C54",
   "status": "proved",
   "theorems": [
    "C54_waitForStarted",
    "C54_waitForStarted_ends",
    "C54_waitForFinished",
    "C54_waitForFinished_ends",
    "C54_start"
   ],
   "note": ""
  },
  {
   "property": "C55",
   "status": "proved",
   "theorems": [
    "C55_waitForStarted",
    "C55_waitForStarted_ends",
    "C55_waitForFinished",
    "C55_waitForFinished_ends",
    "C55_moved",
    "C55_move_to_started_thread",
    "C55_move_to_new_thread"
   ],
   "note": "waitForStarted/waitForFinished in PropsNet.v; moveToThread in PropsThread.v: all interleavings, the coroutine continues on t, which runs (C55_moved); to a thread already started, or started after the connection, the remaining steps are always possible."
  },
  {
   "property": "C56",
   "status": "partial",
   "theorems": [
    "C56_finished_thread_hangs_refuted",
    "C56_missed_start_hangs_refuted"
   ],
   "note": "REFUTED as stated: the code violates it (witness in the *_refuted theorem). two ways to hang: the thread has finished, or it is started between the check and the connection."
  },
  {
   "property": "C57",
   "status": "proved",
   "theorems": [
    "C57_answers",
    "C57_no_suspend",
    "C57_resumed",
    "C57_suspends",
    "C57_single"
   ],
   "note": "all interleavings of any number of awaiters with the thread that receives the reply; what is not resumed is C88."
  },
  {
   "property": "C58",
   "status": "proved",
   "theorems": [
    "C58_open",
    "C58_open_ends",
    "C58_ping",
    "C58_ping_ends",
    "C58_frames_in_order",
    "C58_frames_end",
    "C58_frames_complete",
    "C58_frames_in_time",
    "C58_frames_plain_user"
   ],
   "note": "open() and ping() assume that QWebSocket::open()/ping() do not report the outcome during the call itself (else C67). C58_frames_*: histories in which nothing is delivered while the user is suspended elsewhere (else C77); C58_frames_plain_user: these include all histories of users that only await the generator."
  },
  {
   "property": "C59",
   "status": "proved",
   "theorems": [
    "C59_once",
    "C59_all",
    "C59_call",
    "C59_value",
    "C59_failed",
    "C59_set",
    "C59_done",
    "C59_resume",
    "C59_then",
    "C59_await"
   ],
   "note": "any number of QmlTasks, copies, callbacks, listeners. C59_done/resume/then/await state what each operation does in every reachable state; what callbacks after the first one are passed is C92."
  },
  {
   "property": "C60",
   "status": "partial",
   "theorems": [
    "C60_exception_refuted",
    "C60_refuted"
   ],
   "note": "REFUTED as stated: the code violates it (witness in the *_refuted theorem). C60_exception_refuted: whenever the coroutine throws, in every later history."
  },
  {
   "property": "C61",
   "status": "proved",
   "theorems": [
    "C61_destroyed_once",
    "C61_one_owner",
    "C61_destroyed_with_owner",
    "C61_owner_destroys",
    "C61_locals_destroyed"
   ],
   "note": ""
  },
  {
   "property": "C62",
   "status": "partial",
   "theorems": [
    "C62_begin_finished_refuted",
    "C62_increment_end_refuted",
    "C62_begin_defined_iff",
    "C62_increment_defined_iff"
   ],
   "note": "REFUTED as stated: the code violates it (witness in the *_refuted theorem). C62_begin_defined_iff / C62_increment_defined_iff state exactly when the operations are defined."
  },
  {
   "property": "C63",
   "status": "partial",
   "theorems": [
    "C63_null_with_timeout",
    "C63_null_refuted"
   ],
   "note": "REFUTED as stated: the code violates it (witness in the *_refuted theorem)."
  },
  {
   "property": "C64",
   "status": "partial",
   "theorems": [
    "C64_refuted"
   ],
   "note": "REFUTED as stated: the code violates it (witness in the *_refuted theorem)."
  },
  {
   "property": "C65",
   "status": "partial",
   "theorems": [
    "C65_refuted"
   ],
   "note": "REFUTED as stated: the code violates it (witness in the *_refuted theorem)."
  },
  {
   "property": "C66",
   "status": "partial",
   "theorems": [
    "C66_refuted"
   ],
   "note": "REFUTED as stated: the code violates it (witness in the *_refuted theorem)."
  },
  {
   "property": "C67",
   "status": "partial",
   "theorems": [
    "C67_outcome_lost",
    "C67_refuted"
   ],
   "note": "REFUTED as stated: the code violates it (witness in the *_refuted theorem). C67_outcome_lost: always, whatever the socket does later."
  },
  {
   "property": "C68",
   "status": "partial",
   "theorems": [
    "C68_refuted"
   ],
   "note": "REFUTED as stated: the code violates it (witness in the *_refuted theorem)."
  },
  {
   "property": "C69",
   "status": "partial",
   "theorems": [
    "C69_hangs",
    "C69_refuted"
   ],
   "note": "REFUTED as stated: the code violates it (witness in the *_refuted theorem). C69_hangs: for every process behaviour in which started is not emitted."
  },
  {
   "property": "C70",
   "status": "proved",
   "theorems": [
    "C70_nextPendingConnection",
    "C70_nextPendingConnection_ends"
   ],
   "note": ""
  },
  {
   "property": "C71",
   "status": "partial",
   "theorems": [
    "C71_refuted"
   ],
   "note": "REFUTED as stated: the code violates it (witness in the *_refuted theorem)."
  },
  {
   "property": "C72",
   "status": "partial",
   "theorems": [
    "C72_failed_at_once_hangs",
    "C72_refuted"
   ],
   "note": "REFUTED as stated: the code violates it (witness in the *_refuted theorem). C72_failed_at_once_hangs: for every later behaviour without a new attempt."
  },
  {
   "property": "C73",
   "status": "partial",
   "theorems": [
    "C73_never_ends_refuted"
   ],
   "note": "REFUTED as stated: the code violates it (witness in the *_refuted theorem). for every later history."
  },
  {
   "property": "C74",
   "status": "partial",
   "theorems": [
    "C74_emission_lost_refuted"
   ],
   "note": "REFUTED as stated: the code violates it (witness in the *_refuted theorem)."
  },
  {
   "property": "C75",
   "status": "partial",
   "theorems": [
    "C75_ends_with_object_refuted"
   ],
   "note": "REFUTED as stated: the code violates it (witness in the *_refuted theorem)."
  },
  {
   "property": "C76",
   "status": "partial",
   "theorems": [
    "C76_late_delivery_refuted"
   ],
   "note": "REFUTED as stated: the code violates it (witness in the *_refuted theorem)."
  },
  {
   "property": "C77",
   "status": "partial",
   "theorems": [
    "C77_report_lost_refuted"
   ],
   "note": "REFUTED as stated: the code violates it (witness in the *_refuted theorem). C77_report_lost: whenever it happens in an otherwise calm history."
  },
  {
   "property": "C78",
   "status": "partial",
   "theorems": [
    "C78_early_frames_lost_refuted"
   ],
   "note": "REFUTED as stated: the code violates it (witness in the *_refuted theorem). for every history."
  },
  {
   "property": "C79",
   "status": "partial",
   "theorems": [
    "C79_user_type_dropped_refuted"
   ],
   "note": "REFUTED as stated: the code violates it (witness in the *_refuted theorem). for every type name that ends in QPrivateSignal."
  },
  {
   "property": "C80",
   "status": "partial",
   "theorems": [
    "C80_other_clock_late_refuted"
   ],
   "note": "REFUTED as stated: the code violates it (witness in the *_refuted theorem). for every clock ahead of the steady clock."
  },
  {
   "property": "C81",
   "status": "partial",
   "theorems": [
    "C81_long_sleep_refuted"
   ],
   "note": "REFUTED as stated: the code violates it (witness in the *_refuted theorem). for every duration of 2^31 to 2^32-1 ms, with the conversion to int of QTimer::start() in Qt 5 and Qt 6 before 6.8."
  },
  {
   "property": "C82",
   "status": "partial",
   "theorems": [
    "C82_destroyed_while_moving_refuted"
   ],
   "note": "REFUTED as stated: the code violates it (witness in the *_refuted theorem)."
  },
  {
   "property": "C83",
   "status": "proved",
   "theorems": [
    "C83_destroyed_otherwise"
   ],
   "note": ""
  },
  {
   "property": "C84",
   "status": "partial",
   "theorems": [
    "C84_canceled_blocks_refuted"
   ],
   "note": "REFUTED as stated: the code violates it (witness in the *_refuted theorem). for every history in which the future was canceled, has not finished and has no result."
  },
  {
   "property": "C85",
   "status": "partial",
   "theorems": [
    "C85_canceled_undefined_refuted"
   ],
   "note": "REFUTED as stated: the code violates it (witness in the *_refuted theorem)."
  },
  {
   "property": "C86",
   "status": "partial",
   "theorems": [
    "C86_taken_twice_refuted"
   ],
   "note": "REFUTED as stated: the code violates it (witness in the *_refuted theorem)."
  },
  {
   "property": "C87",
   "status": "partial",
   "theorems": [
    "C87_destroyed_resumed_refuted"
   ],
   "note": "REFUTED as stated: the code violates it (witness in the *_refuted theorem)."
  },
  {
   "property": "C88",
   "status": "partial",
   "theorems": [
    "C88_late_watcher_hangs_refuted"
   ],
   "note": "REFUTED as stated: the code violates it (witness in the *_refuted theorem). for every awaiter suspended after the others were notified: a second waitForFinished(), or a race."
  },
  {
   "property": "C89",
   "status": "partial",
   "theorems": [
    "C89_wait_call_suspends_refuted"
   ],
   "note": "REFUTED as stated: the code violates it (witness in the *_refuted theorem)."
  },
  {
   "property": "C90",
   "status": "partial",
   "theorems": [
    "C90_null_call_hangs_refuted"
   ],
   "note": "REFUTED as stated: the code violates it (witness in the *_refuted theorem)."
  },
  {
   "property": "C91",
   "status": "partial",
   "theorems": [
    "C91_destroyed_resumed_refuted"
   ],
   "note": "REFUTED as stated: the code violates it (witness in the *_refuted theorem)."
  },
  {
   "property": "C92",
   "status": "partial",
   "theorems": [
    "C92_partial",
    "C92_refuted"
   ],
   "note": "REFUTED as stated: the code violates it (witness in the *_refuted theorem). C92_partial: a callback is passed the result iff no other callback of the task has run."
  },
  {
   "property": "C93",
   "status": "partial",
   "theorems": [
    "C93_refuted",
    "C93_partial"
   ],
   "note": "REFUTED as stated: the code violates it (witness in the *_refuted theorem). C93_refuted: always, for every copied QmlTask; C93_partial: never with the only QmlTask of a task."
  },
  {
   "property": "C94",
   "status": "partial",
   "theorems": [
    "C94_then",
    "C94_refuted"
   ],
   "note": "REFUTED as stated: the code violates it (witness in the *_refuted theorem). then() only warns (C94_then); await() is undefined, always."
  },
  {
   "property": "C95",
   "status": "proved",
   "theorems": [
    "C95_once",
    "C95_at_most_once",
    "C95_done",
    "C95_at_once",
    "C95_texture"
   ],
   "note": "any number of requests in any order."
  },
  {
   "property": "C96",
   "status": "partial",
   "theorems": [
    "C96_refuted",
    "C96_partial"
   ],
   "note": "REFUTED as stated: the code violates it (witness in the *_refuted theorem). C96_refuted: always if the coroutine then ends with an image; C96_partial: only then."
  },
  {
   "property": "C97",
   "status": "proved",
   "theorems": [
    "C97_await_defined_iff",
    "C97_waitfor_defined_iff"
   ],
   "note": ""
  },
  {
   "property": "C98",
   "status": "proved",
   "theorems": [
    "C98_unowned_destroyed_iff_ended"
   ],
   "note": ""
  },
  {
   "property": "C99",
   "status": "proved",
   "theorems": [
    "C99_all_undefined_behaviour"
   ],
   "note": ""
  },
  {
   "property": "C100",
   "status": "proved",
   "theorems": [
    "C100_begin_defined_iff",
    "C100_increment_defined_iff",
    "C100_deref_defined_iff",
    "C100_write_defined_iff"
   ],
   "note": ""
  },
  {
   "property": "C101",
   "status": "proved",
   "theorems": [
    "C101_begin_defined_iff",
    "C101_increment_defined_iff",
    "C101_deref_defined_iff"
   ],
   "note": ""
  },
  {
   "property": "C102",
   "status": "proved",
   "theorems": [
    "C102_destroy_defined_iff",
    "C102_completion_defined_iff",
    "C102_undefined_only_if_unsafe",
    "C102_nothing_after_destruction"
   ],
   "note": ""
  },
  {
   "property": "C103",
   "status": "proved",
   "theorems": [
    "C103_ends_while_object_exists",
    "C103_never_ends_once_destroyed",
    "C103_null_object_ends_at_once"
   ],
   "note": ""
  },
  {
   "property": "C104",
   "status": "proved",
   "theorems": [
    "C104_sleep_for_lower_bound",
    "C104_sleep_for_returns",
    "C104_negative_returns_at_once",
    "C104_sleep_until_lower_bound",
    "C104_sleep_until_returns"
   ],
   "note": ""
  },
  {
   "property": "C105",
   "status": "proved",
   "theorems": [
    "C105_await",
    "C105_resume",
    "C105_blocks_iff",
    "C105_undefined_iff",
    "C105_stale_iff"
   ],
   "note": ""
  },
  {
   "property": "C106",
   "status": "proved",
   "theorems": [
    "C106_ends_iff",
    "C106_late_only_if",
    "C106_stale_iff",
    "C106_wait_can_be_destroyed"
   ],
   "note": ""
  },
  {
   "property": "C107",
   "status": "proved",
   "theorems": [
    "C107_then_undefined_iff",
    "C107_await_undefined_iff",
    "C107_else_defined",
    "C107_callback_value"
   ],
   "note": ""
  },
  {
   "property": "C108",
   "status": "proved",
   "theorems": [
    "C108_undefined_iff",
    "C108_finished_iff"
   ],
   "note": ""
  },
  {
   "property": "C109",
   "status": "proved",
   "theorems": [
    "C109_ready_read",
    "C109_ends",
    "C109_true_means_signal"
   ],
   "note": ""
  },
  {
   "property": "C110",
   "status": "proved",
   "theorems": [
    "C110_stops",
    "C110_returns",
    "C110_check",
    "C110_fail_skip"
   ],
   "note": ""
  },
  {
   "property": "C111",
   "status": "proved",
   "theorems": [
    "C111_throws"
   ],
   "note": ""
  },
  {
   "property": "C112",
   "status": "proved",
   "theorems": [
    "C112_returns_exactly"
   ],
   "note": ""
  },
  {
   "property": "C113",
   "status": "proved",
   "theorems": [
    "C113_destroyed_exactly"
   ],
   "note": ""
  },
  {
   "property": "C114",
   "status": "proved",
   "theorems": [
    "C114_goes_wrong_exactly",
    "C114_right_in_order",
    "C114_second_slot"
   ],
   "note": ""
  },
  {
   "property": "C115",
   "status": "proved",
   "theorems": [
    "C115_same_behaviour",
    "C115_same_idle",
    "C115_defined",
    "C115_no_leak"
   ],
   "note": "trace equivalence (both directions) between the machine of TaskModel.v and a language of ordinary calls (CoopSpec.v); calls are co_await of the temporary Task or LazyTask, threads are started by handlers that drop the Task. Arguments, captures and tasks kept in variables are in C01-C20."
  },
  {
   "property": "C116",
   "status": "proved",
   "theorems": [
    "C116_no_result",
    "C116_void_returns",
    "C116_late_completion"
   ],
   "note": "exact form of C22."
  },
  {
   "property": "C117",
   "status": "proved",
   "theorems": [
    "C117_null",
    "C117_read",
    "C117_device",
    "C117_hangs",
    "C117_device_hangs",
    "C117_write"
   ],
   "note": "exact form of C65 and C68, with the null pointer."
  },
  {
   "property": "C118",
   "status": "proved",
   "theorems": [
    "C118_write",
    "C118_complete"
   ],
   "note": "truthful devices only; write() not called from within an emission of the device."
  },
  {
   "property": "C119",
   "status": "partial",
   "theorems": [
    "C119_refuted"
   ],
   "note": "REFUTED as stated: the code violates it (witness in the *_refuted theorem). violated: bytes of earlier writes count. C118_write is the exact bound."
  },
  {
   "property": "C120",
   "status": "proved",
   "theorems": [
    "C120_returns"
   ],
   "note": "the positive counterpart of C48."
  },
  {
   "property": "C121",
   "status": "partial",
   "theorems": [
    "C121_other_await_cut_short_refuted"
   ],
   "note": "REFUTED as stated: the code violates it (witness in the *_refuted theorem). violated, always after C77; without such a delivery C58_frames_in_order shows that it holds."
  },
  {
   "property": "C122",
   "status": "partial",
   "theorems": [
    "C122_undefined_after_wait_refuted"
   ],
   "note": "REFUTED as stated: the code violates it (witness in the *_refuted theorem). violated in every history with a wait; the exact form of C66."
  },
  {
   "property": "C123",
   "status": "proved",
   "theorems": [
    "C123_resumed",
    "C123_woken",
    "C123_timer",
    "C123_timeout"
   ],
   "note": "nested emissions may resume with a later emission first (example nested); which one is then exactly the order in which the slots are called."
  },
  {
   "property": "C124",
   "status": "proved",
   "theorems": [
    "C124_destroy_safe",
    "C124_never_resumed",
    "C124_nothing_left"
   ],
   "note": ""
  },
  {
   "property": "C125",
   "status": "partial",
   "theorems": [
    "C125_refuted_destroyed_then_emitted",
    "C125_refuted_destroyed_when_ready"
   ],
   "note": "REFUTED as stated: the code violates it (witness in the *_refuted theorem). violated for every continuation in which the object emits the signal or the event loop runs the pending shot."
  },
  {
   "property": "C126",
   "status": "partial",
   "theorems": [
    "C126_refuted_lost",
    "C126_refuted_race"
   ],
   "note": "REFUTED as stated: the code violates it (witness in the *_refuted theorem). violated from every state in which the coroutine runs and nobody else executes co_await; the exact form is C127."
  },
  {
   "property": "C127",
   "status": "proved",
   "theorems": [
    "C127_returned",
    "C127_never",
    "C127_woken"
   ],
   "note": ""
  },
  {
   "property": "C128",
   "status": "proved",
   "theorems": [
    "C128_frame",
    "C128_race"
   ],
   "note": "the reference count is an atomic: taken as such."
  },
  {
   "property": "C129",
   "status": "proved",
   "theorems": [
    "C129_connections"
   ],
   "note": "the exact form of C66 and C122: what is taken and lost."
  },
  {
   "property": "C130",
   "status": "partial",
   "theorems": [
    "C130_lost",
    "C130_refuted",
    "C130_returns"
   ],
   "note": "REFUTED as stated: the code violates it (witness in the *_refuted theorem). violated in every history in which quit() comes between the look at coroutineFinished and exec(); C130_returns shows that there is no other case."
  },
  {
   "property": "C131",
   "status": "proved",
   "theorems": [
    "C131_waited_outcome"
   ],
   "note": ""
  },
  {
   "property": "C132",
   "status": "partial",
   "theorems": [
    "C132_refuted",
    "C132_only_then",
    "C132_unavoidable"
   ],
   "note": "REFUTED as stated: the code violates it (witness in the *_refuted theorem). violated in every history in which waitFor() returns before quit() is over; C132_only_then shows that there is no other case."
  },
  {
   "property": "C133",
   "status": "proved",
   "theorems": [
    "C133_stream"
   ],
   "note": "plain QIODevices that live; one coroutine with all wrapper classes is C45. Events are delivered in any order."
  },
  {
   "property": "C134",
   "status": "proved",
   "theorems": [
    "C134_nothing",
    "C134_suspended_when_empty"
   ],
   "note": ""
  },
  {
   "property": "C135",
   "status": "partial",
   "theorems": [
    "C135_refuted"
   ],
   "note": "REFUTED as stated: the code violates it (witness in the *_refuted theorem). violated from every state with two waiting readers of which one reads everything; the exact form is C134."
  },
  {
   "property": "C136",
   "status": "proved",
   "theorems": [
    "C136_returns",
    "C136_all_woken",
    "C136_alone"
   ],
   "note": ""
  },
  {
   "property": "C137",
   "status": "proved",
   "theorems": [
    "C137_result"
   ],
   "note": "plain, truthful QIODevices that live; one coroutine with all wrapper classes is C118."
  },
  {
   "property": "C138",
   "status": "partial",
   "theorems": [
    "C138_refuted"
   ],
   "note": "REFUTED as stated: the code violates it (witness in the *_refuted theorem). violated from every state with a non-empty buffer; the exact bound is C137."
  },
  {
   "property": "C139",
   "status": "proved",
   "theorems": [
    "C139_all_return",
    "C139_woken_goes_on",
    "C139_hang"
   ],
   "note": "that write() can loop for ever is C48; C139_hang says exactly what has happened then."
  },
  {
   "property": "C140",
   "status": "partial",
   "theorems": [
    "C140_woken",
    "C140_lost",
    "C140_refuted",
    "C140_started_refuted"
   ],
   "note": "REFUTED as stated: the code violates it (witness in the *_refuted theorem). violated from every state with a running (for waitForStarted: a stopped) thread; C140_woken and C140_lost are the exact form."
  },
  {
   "property": "C141",
   "status": "proved",
   "theorems": [
    "C141_answers",
    "C141_result",
    "C141_true"
   ],
   "note": ""
  },
  {
   "property": "C142",
   "status": "partial",
   "theorems": [
    "C142_refuted",
    "C142_only_then"
   ],
   "note": "REFUTED as stated: the code violates it (witness in the *_refuted theorem). violated from every state with a running thread; C142_only_then is the exact form."
  },
  {
   "property": "C143",
   "status": "proved",
   "theorems": [
    "C143_safe",
    "C143_starts",
    "C143_returns",
    "C143_over",
    "C143_got",
    "C143_frame",
    "C143_second"
   ],
   "note": "the reference count is an atomic, steps are sequentially consistent; C143_second is the case outside the hypothesis (C15)."
  },
  {
   "property": "C144",
   "status": "proved",
   "theorems": [
    "C144_connections"
   ],
   "note": ""
  },
  {
   "property": "C145",
   "status": "proved",
   "theorems": [
    "C145_suspended_when_none",
    "C145_nullptr"
   ],
   "note": ""
  },
  {
   "property": "C146",
   "status": "partial",
   "theorems": [
    "C146_refuted"
   ],
   "note": "REFUTED as stated: the code violates it (witness in the *_refuted theorem). violated from every state in which two coroutines wait; C145_nullptr is the exact form."
  },
  {
   "property": "C147",
   "status": "proved",
   "theorems": [
    "C147_returns",
    "C147_who_is_woken",
    "C147_alone"
   ],
   "note": ""
  },
  {
   "property": "C148",
   "status": "proved",
   "theorems": [
    "C148_connections"
   ],
   "note": ""
  },
  {
   "property": "C149",
   "status": "proved",
   "theorems": [
    "C149_emission",
    "C149_only"
   ],
   "note": ""
  },
  {
   "property": "C150",
   "status": "partial",
   "theorems": [
    "C150_refuted"
   ],
   "note": "REFUTED as stated: the code violates it (witness in the *_refuted theorem). violated from every state in which two coroutines wait and none has ended; C149 is the exact form."
  },
  {
   "property": "C151",
   "status": "proved",
   "theorems": [
    "C151_returns",
    "C151_all_woken",
    "C151_fixed"
   ],
   "note": ""
  }
 ]
}