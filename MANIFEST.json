{
 "claims": [
  {
   "property": "C01",
   "status": "proved",
   "theorems": [
    "C01_basepri_mutual_exclusion"
   ],
   "note": "1..7 priority bits, any application whose ceilings cover the priorities of the users (C07 proves that of the macro), any nesting; interrupts between any two register accesses."
  },
  {
   "property": "C02",
   "status": "proved",
   "theorems": [
    "C02_basepri_restored",
    "C02_basepri_idle",
    "C02_not_overblocked",
    "C02_masked"
   ],
   "note": "Also gives exact restore after preempting handlers (run) and back to BASEPRI = 0 when idle."
  },
  {
   "property": "C03",
   "status": "partial",
   "theorems": [
    "C03_priority_mapping_partial",
    "C03_monotonic_priority",
    "C03_eight_bits_refuted"
   ],
   "note": "Proved for 1..7 implemented bits; with 8 bits the u8 expression 1 << bits overflows for every priority (C03_eight_bits_refuted), cortex_common.rs 5-7."
  },
  {
   "property": "C04",
   "status": "proved",
   "theorems": [
    "C04_mask_exact",
    "C04_source_mutual_exclusion",
    "C04_source_restored",
    "C04_source_idle",
    "C04_not_overblocked"
   ],
   "note": "Mutual exclusion for resources not used by exception-bound tasks (those: C05)."
  },
  {
   "property": "C05",
   "status": "partial",
   "theorems": [
    "C05_exceptions_excluded_partial",
    "C05_exception_task_excluded_refuted"
   ],
   "note": "False of the code: exceptions are left out of the masks (bindings/cortex.rs 68-96) and the macro accepts such applications; C05_exception_task_excluded_refuted. Proved when the ceiling is >= 4 (critical section)."
  },
  {
   "property": "C06",
   "status": "partial",
   "theorems": [
    "C06_threshold_mutual_exclusion_partial",
    "C06_threshold_restored",
    "C06_threshold_idle",
    "C06_not_overblocked",
    "C06_any_nesting_refuted"
   ],
   "note": "Registers restored and nothing masked too much: proved for any nesting. Mutual exclusion proved when locks are nested with non-decreasing ceilings; false otherwise (C06_any_nesting_refuted): lock writes ceiling + 1 without taking the maximum with the current threshold (riscv_esp32c3.rs 61-69), so an inner lock of lower ceiling lowers it. The trap entry is assumed to let only strictly higher priorities preempt."
  },
  {
   "property": "C07",
   "status": "partial",
   "theorems": [
    "C07_ceiling_is_highest_partial",
    "C07_ceiling_of_clash",
    "C07_order_independent",
    "C07_ceiling_refuted"
   ],
   "note": "Proved unless a task uses a #[local] field with the name of the shared resource; then false of the code (C07_ceiling_refuted): analyze.rs 242-258 stores the ownership of local resources in the same map as that of shared ones, overwriting the ceiling. C07_ceiling_of_clash gives the value in that case."
  },
  {
   "property": "C08",
   "status": "proved",
   "theorems": [
    "C08_lock_free_one_priority"
   ],
   "note": "Run-time half: C54_lock_free_*."
  },
  {
   "property": "C09",
   "status": "proved",
   "theorems": [
    "C09_local_at_most_one_task",
    "C09_local_not_in_init"
   ],
   "note": ""
  },
  {
   "property": "C10",
   "status": "partial",
   "theorems": [
    "C10_send_partial",
    "C10_sync",
    "C10_send_refuted"
   ],
   "note": "Sync proved in full; Send proved unless the name clash of C07 hits the resource (C10_send_refuted)."
  },
  {
   "property": "C11",
   "status": "proved",
   "theorems": [
    "C11_dispatcher_per_priority",
    "C11_dispatcher_unique",
    "C11_dispatcher_declared",
    "C11_dispatchers_are_interrupts",
    "C11_hardware_tasks_maskable",
    "C11_exception_handlers",
    "C11_esp_dispatchers",
    "C11_handlers_distinct",
    "C11_one_handler_per_task",
    "C11_priority_zero_in_thread",
    "C11_too_few_rejected"
   ],
   "note": "For the SLIC backend dispatcher names are generated; distinctness from hardware task names is stated for the other backends."
  },
  {
   "property": "C12",
   "status": "proved",
   "theorems": [
    "C12_initialised_before_handlers",
    "C12_initialised_before_idle",
    "C12_interrupts_off",
    "C12_no_handler_before_init_returns"
   ],
   "note": "Interrupt sources are assumed off at reset; code of init may switch on any interrupt source but not the global flag (unsafe)."
  },
  {
   "property": "C13",
   "status": "proved",
   "theorems": [
    "C13_delayed_only_by_higher",
    "C13_lock_never_waits",
    "C13_no_deadlock",
    "C13_dispatched_above_ceilings",
    "C13_single_blocking",
    "C13_blocked_once"
   ],
   "note": "BASEPRI backend. Deadlock freedom: progress in every reachable state plus termination of every schedule without new interrupts, tasks and locks."
  },
  {
   "property": "C14",
   "status": "proved",
   "theorems": [
    "C14_instances_do_not_overlap",
    "C14_spawn_while_live_is_refused",
    "C14_spawn_when_none_live_is_accepted",
    "C14_running_is_live"
   ],
   "note": "One dispatcher with any list of tasks; spawning and waking contexts interleave after every atomic access (a superset of preemption by priority)."
  },
  {
   "property": "C15",
   "status": "proved",
   "theorems": [
    "C15_spawn_is_polled_or_due",
    "C15_at_rest_all_spawns_polled",
    "C15_pass_polls_all_due",
    "C15_pass_ends",
    "C15_pended_dispatcher_starts"
   ],
   "note": "The theorems about whole executions carry the condition that no bad poll (C17) ended the execution."
  },
  {
   "property": "C16",
   "status": "proved",
   "theorems": [
    "C16_unpend_loses_nothing",
    "C16_wake_stays_until_polled",
    "C16_at_rest_polled_since_wake",
    "C16_next_pass_polls_woken"
   ],
   "note": "As C15. The priority-0 dispatcher (endless loop) is covered by the per-pass theorem."
  },
  {
   "property": "C17",
   "status": "partial",
   "theorems": [
    "C17_bad_poll_only_in_window_partial",
    "C17_no_bad_poll_partial",
    "C17_polls_are_of_live_instances_partial",
    "C17_polled_after_completion_refuted",
    "C17_bad_poll_preempts_spawner_partial",
    "C17_no_bad_poll_downward_partial",
    "C17_accepted_application_refuted"
   ],
   "note": "Proved: each poll that completes normally is of the live instance; a bad poll needs a spawn preempted between try_allocate and the write of the future while a stale wake is pending; impossible if the dispatcher cannot preempt such a spawn. False otherwise (C17_polled_after_completion_refuted): try_allocate sets running before the future is written (executor.rs 253-268) and pending is not cleared, so a dispatcher that preempts a lower-priority spawn polls the old, completed future (undefined behaviour). In the whole application (SystemModel): a bad poll needs the dispatcher to have preempted a lower-priority task in the middle of its spawn, or a handler that is no task to be in one (C17_bad_poll_preempts_spawner_partial); none if tasks spawn only tasks of at most their own priority (C17_no_bad_poll_downward_partial); it does happen in an accepted application (C17_accepted_application_refuted)."
  },
  {
   "property": "C18",
   "status": "proved",
   "theorems": [
    "C18_wait_queue_refines_fifo"
   ],
   "note": "Pointer code refines a FIFO list for every history the safety contract allows."
  },
  {
   "property": "C19",
   "status": "proved",
   "theorems": [
    "C19_remove_exactly_that_link",
    "C19_remove_after_pop_is_noop"
   ],
   "note": ""
  },
  {
   "property": "C20",
   "status": "partial",
   "theorems": [
    "C20_pending_is_registered",
    "C20_nothing_left_behind",
    "C20_no_duplicate_entry",
    "C20_completes_only_when_true",
    "C20_no_lost_wakeup_partial",
    "C20_no_lost_wakeup_refuted"
   ],
   "note": "The lost wake-up clause is false of the code (C20_no_lost_wakeup_refuted: closure evaluated outside the critical section before the link is pushed, wait_queue.rs 246-265); everything else proved, and the clause proved when no waiter is in that window."
  },
  {
   "property": "C21",
   "status": "proved",
   "theorems": [
    "C21_no_registered_waker_is_lost",
    "C21_wake_wakes_the_newest",
    "C21_only_registered_wakers_are_woken",
    "C21_each_registration_woken_at_most_once"
   ],
   "note": ""
  },
  {
   "property": "C22",
   "status": "proved",
   "theorems": [
    "C22_received_is_prefix_of_committed",
    "C22_rest_is_buffered",
    "C22_every_operation_has_one_outcome"
   ],
   "note": "Every step is one critical section / one atomic access; any number of sender handles, any schedule. Values are polymorphic."
  },
  {
   "property": "C23",
   "status": "proved",
   "theorems": [
    "C23_slot_in_exactly_one_place",
    "C23_never_aliased",
    "C23_no_failure"
   ],
   "note": ""
  },
  {
   "property": "C24",
   "status": "proved",
   "theorems": [
    "C24_full_only_for_cause",
    "C24_no_receiver_only_for_cause",
    "C24_no_barging",
    "C24_wait_free"
   ],
   "note": ""
  },
  {
   "property": "C25",
   "status": "proved",
   "theorems": [
    "C25_longest_waiting_first",
    "C25_queue_is_in_order",
    "C25_popped_is_woken"
   ],
   "note": ""
  },
  {
   "property": "C26",
   "status": "proved",
   "theorems": [
    "C26_cancel_leaves_nothing",
    "C26_cancel_returns_slot",
    "C26_cancel_completes"
   ],
   "note": ""
  },
  {
   "property": "C27",
   "status": "proved",
   "theorems": [
    "C27_receiver_not_left_sleeping",
    "C27_registered_waker_is_current",
    "C27_sender_count_exact"
   ],
   "note": ""
  },
  {
   "property": "C28",
   "status": "partial",
   "theorems": [
    "C28_no_sender_partial",
    "C28_no_sender_only_when_drained_refuted"
   ],
   "note": "Half proved: NoSender implies every sender is gone. The drained half is false of the code (C28_no_sender_only_when_drained_refuted): try_recv checks the ready queue (channel.rs 593-596) before the sender count (610-614), in separate critical sections, so a last sender that sends and is dropped in between loses its value from the view of a receiver that stops at NoSender."
  },
  {
   "property": "C29",
   "status": "partial",
   "theorems": [
    "C29_waiting_senders_are_released_partial",
    "C29_waiting_senders_fail_with_value_partial",
    "C29_no_commit_after_drop_partial",
    "C29_drop_releases_values_partial",
    "C29_drained_partial",
    "C29_ok_after_drop_refuted"
   ],
   "note": "Proved: waiting senders are woken and fail with their value, operations without a slot never commit after the drop, buffered values are dropped exactly once. False: a try_send past its receiver check when the receiver is dropped reports Ok and its value stays in the dead channel (C29_ok_after_drop_refuted)."
  },
  {
   "property": "C30",
   "status": "partial",
   "theorems": [
    "C30_resplit_refuted",
    "C30_resplit_assert_refuted"
   ],
   "note": "False of the code: split does not reset receiver_dropped, so the second channel always fails with NoReceiver (C30_resplit_refuted, for every reachable state); after the race of C29 the debug_assert in split fails too."
  },
  {
   "property": "C31",
   "status": "proved",
   "theorems": [
    "C31_one_guard_at_a_time",
    "C31_mutual_exclusion",
    "C31_only_the_holder_writes"
   ],
   "note": ""
  },
  {
   "property": "C32",
   "status": "proved",
   "theorems": [
    "C32_first_come_first_served",
    "C32_no_overtaking",
    "C32_try_access_never_barges"
   ],
   "note": ""
  },
  {
   "property": "C33",
   "status": "partial",
   "theorems": [
    "C33_free_is_available_partial",
    "C33_handed_is_woken_partial",
    "C33_never_lost_partial",
    "C33_lost_for_ever_refuted",
    "C33_cancel_after_handover_refuted"
   ],
   "note": "Proved for schedules that never drop a future between its hand-over and its next poll; false otherwise (C33_cancel_after_handover_refuted + C33_lost_for_ever_refuted): the dropper (arbiter.rs 83-88) does not pass the arbiter on, so taken stays true and no guard is ever granted again."
  },
  {
   "property": "C34",
   "status": "proved",
   "theorems": [
    "C34_is_a_mailbox",
    "C34_returns_newest_once",
    "C34_no_lost_wakeup",
    "C34_registered_waker_is_newest",
    "C34_wait_completes",
    "C34_one_reader"
   ],
   "note": ""
  },
  {
   "property": "C35",
   "status": "partial",
   "theorems": [
    "C35_value_is_newest_partial",
    "C35_reads_latest_partial",
    "C35_changed_is_fresh_partial",
    "C35_no_lost_wakeup_partial",
    "C35_unseen_write_is_reported_partial",
    "C35_write_lost_refuted"
   ],
   "note": "Proved in full when no write falls between the reader reading a value and marking it seen; false otherwise (C35_write_lost_refuted): watch.rs 187-190 reads and marks in two separate steps, so the second write is marked seen without having been returned and changed() sleeps on it."
  },
  {
   "property": "C36",
   "status": "proved",
   "theorems": [
    "C36_compare_is_chronological",
    "C36_is_at_least_is_chronological",
    "C36_window_is_exact"
   ],
   "note": ""
  },
  {
   "property": "C37",
   "status": "proved",
   "theorems": [
    "C37_delay_lasts_at_least_d",
    "C37_delay_until_not_early",
    "C37_delay_ready_after_d_plus_one_ticks",
    "C37_delay_beyond_half_range_refuted",
    "C37_ready_not_early_in_system"
   ],
   "note": "Needs d+1 <= 2^(w-1); beyond it a delay is ready at once (C37_delay_beyond_half_range_refuted), as the documented limit of wrapping time implies."
  },
  {
   "property": "C38",
   "status": "proved",
   "theorems": [
    "C38_timer_list_refines_sorted_list",
    "C38_always_ordered",
    "C38_insert_is_stable",
    "C38_ticks_are_ordered"
   ],
   "note": ""
  },
  {
   "property": "C39",
   "status": "proved",
   "theorems": [
    "C39_no_missed_deadline",
    "C39_always_armed",
    "C39_handler_serves_all",
    "C39_return_means_served",
    "C39_earliest_first",
    "C39_woken_once_not_early",
    "C39_popped_is_woken",
    "C39_pending_is_queued_or_ready"
   ],
   "note": "Liveness is stated as: an interrupt is pending/armed for every queued entry, and the handler run to completion serves all due entries; schedules keep deadlines within half the tick range."
  },
  {
   "property": "C40",
   "status": "proved",
   "theorems": [
    "C40_dropped_not_queued",
    "C40_drop_leaves_others"
   ],
   "note": ""
  },
  {
   "property": "C41",
   "status": "proved",
   "theorems": [
    "C41_ok_iff_future_ready",
    "C41_error_iff_deadline_passed",
    "C41_timeout_after_not_early"
   ],
   "note": ""
  },
  {
   "property": "C42",
   "status": "proved",
   "theorems": [
    "C42_calculate_now_is_true_time",
    "C42_two_missed_half_periods"
   ],
   "note": ""
  },
  {
   "property": "C43",
   "status": "proved",
   "theorems": [
    "C43_half_periods_stay_in_step",
    "C43_now_is_always_true_time"
   ],
   "note": "Latency assumption: each half-period interrupt is served before the next boundary. The width of the counter variable is not modelled."
  },
  {
   "property": "C44",
   "status": "proved",
   "theorems": [
    "C44_compare_near",
    "C44_compare_truncated",
    "C44_compare_rtc",
    "C44_compare_letimer",
    "C44_next_match_shows_value",
    "C44_next_match_is_first",
    "C44_next_match_bounds"
   ],
   "note": "Together with C39 (re-check after arming). Hardware compare units modelled as equality comparators on the counter."
  },
  {
   "property": "C45",
   "status": "proved",
   "theorems": [
    "C45_rp_now_was_the_time",
    "C45_rp_now_terminates"
   ],
   "note": ""
  },
  {
   "property": "C46",
   "status": "proved",
   "theorems": [
    "C46_systick_never_goes_back",
    "C46_systick_counts_each_wrap_once",
    "C46_systick_exact_when_undisturbed"
   ],
   "note": ""
  },
  {
   "property": "C47",
   "status": "proved",
   "theorems": [
    "C47_blocking_delay_long_enough"
   ],
   "note": "fugit's Instant arithmetic (external) modelled as wrapping add / half-range comparison and *_at_least as ceiling division."
  },
  {
   "property": "C48",
   "status": "partial",
   "theorems": [
    "C48_static_names_partial",
    "C48_no_underscore",
    "C48_shared_names",
    "C48_names_refuted",
    "C48_field_names_refuted"
   ],
   "note": "False of the code: names are concatenated with underscores (codegen/util.rs 139-149), C48_names_refuted, C48_field_names_refuted (the consequence is a compile error on a valid application). Proved when no task name is another followed by an underscore; shared names never clash."
  },
  {
   "property": "C49",
   "status": "partial",
   "theorems": [
    "C49_access_newest_waker_refuted",
    "C49_send_newest_waker_refuted",
    "C49_delay_newest_waker_refuted"
   ],
   "note": "False of the code: Delay keeps the waker of its first poll (harmless under the RTIC executor, which always passes the same waker, not under select/join combinators)."
  },
  {
   "property": "C50",
   "status": "partial",
   "theorems": [
    "C50_esp_now_true_partial",
    "C50_esp_now_torn_refuted"
   ],
   "note": "Proved when no other now() runs between latch and reads; refuted otherwise: esp32c3.rs 82-93 has no critical section."
  },
  {
   "property": "C51",
   "status": "partial",
   "theorems": [
    "C51_letimer_now_within_one_tick",
    "C51_letimer_now_before_interrupt",
    "C51_letimer_monotone",
    "C51_letimer_delay_never_early_refuted"
   ],
   "note": "now() is one tick ahead on the last tick of each 2^24 period (cnt == 0 is mapped to 0, letimer.rs 128-137); monotone, but delays can end up to a tick early (refuted)."
  },
  {
   "property": "C52",
   "status": "partial",
   "theorems": [
    "C52_only_reenables_partial",
    "C52_reenables_refuted"
   ],
   "note": "False of the code: read_mask saves whole NVIC words and set_enable_mask writes them back (cortex_source_mask.rs 181-204), so an interrupt disabled by a preempting task in the same word is enabled again (C52_reenables_refuted). Proved: nothing outside entry/exit sets is enabled, untouched words are left alone."
  },
  {
   "property": "C53",
   "status": "partial",
   "theorems": [
    "C53_handlers_enabled_partial",
    "C53_handlers_enabled_refuted",
    "C53_slic_handlers_enabled"
   ],
   "note": "Proved for Cortex-M and ESP32-C3, and for ESP32-C6 with at most twelve handlers; for SLIC if no hardware task is bound to a generated dispatcher name (C53_slic_handlers_enabled, C91); false for more than twelve on ESP32-C6 (C53_handlers_enabled_refuted): esp32c6.rs 97-104 zips with the list of twelve CPU interrupts and drops the rest silently."
  },
  {
   "property": "C54",
   "status": "partial",
   "theorems": [
    "C54_accepted_mutual_exclusion_partial",
    "C54_lock_free_exclusive_partial",
    "C54_lock_free_one_task_per_handler",
    "C54_accepted_mutual_exclusion_refuted"
   ],
   "note": "Needs no name clash as in C07; with one, both tasks are in the lock at once (C54_accepted_mutual_exclusion_refuted)."
  },
  {
   "property": "C55",
   "status": "proved",
   "theorems": [
    "C55_quiet_when_empty"
   ],
   "note": ""
  },
  {
   "property": "C56",
   "status": "proved",
   "theorems": [
    "C56_transactions_do_not_interleave"
   ],
   "note": "Buffers and word types are abstract (an operation is a number); a pin operation is one step."
  },
  {
   "property": "C57",
   "status": "partial",
   "theorems": [
    "C57_one_chip_select_partial",
    "C57_dropped_transaction_refuted"
   ],
   "note": "Proved when no future is dropped in the middle of a transaction and no chip select pin fails; false otherwise (C57_dropped_transaction_refuted): transaction has no drop guard (spi.rs 46-73), so a cancelled transaction leaves its chip select low while the next device uses the bus."
  },
  {
   "property": "C58",
   "status": "proved",
   "theorems": [
    "C58_timer_priority"
   ],
   "note": "Other uses of RTIC_ASYNC_MAX_LOGICAL_PRIO (async HAL drivers) are outside the repository."
  },
  {
   "property": "C59",
   "status": "proved",
   "theorems": [
    "C59_accepted_iff_rules",
    "C59_structs",
    "C59_one_struct_refuted"
   ],
   "note": "ESP32-C6: with at most eight hardware tasks (beyond twelve handlers not all priorities are checked, C53). With more than one struct of a kind: C59_structs says what is enforced and C59_one_struct_refuted that two #[shared] structs are accepted if the first is empty (app.rs 309-346). Rules about function signatures and cfg attributes are outside the model."
  },
  {
   "property": "C60",
   "status": "partial",
   "theorems": [
    "C60_start_up_completes_partial",
    "C60_start_up_refuted"
   ],
   "note": "Proved except for ESP32-C3 with more than sixteen handlers, where it is false (C60_start_up_refuted): esp32c3.rs 93 numbers CPU interrupts from 16 without limit, and rtic::export::enable(.., 32) indexes a 32-entry register array and shifts a u32 by 32."
  },
  {
   "property": "C61",
   "status": "partial",
   "theorems": [
    "C61_interrupt_reaches_handler_partial",
    "C61_no_foreign_interrupt",
    "C61_reserved_untouched",
    "C61_interrupt_reaches_handler_refuted"
   ],
   "note": "ESP32-C3: for every application that starts up (C60). ESP32-C6: with at most twelve handlers; false for more (C61_interrupt_reaches_handler_refuted, same cause as C53). Code of init is assumed not to reprogram the interrupt matrix."
  },
  {
   "property": "C62",
   "status": "partial",
   "theorems": [
    "C62_source_mutual_exclusion_partial",
    "C62_esp_mutual_exclusion_partial",
    "C62_lock_free_exclusive",
    "C62_source_mutual_exclusion_refuted",
    "C62_esp_mutual_exclusion_refuted"
   ],
   "note": "Lock-free: every target. Source masking: resources no exception-bound task lists, or listed at priority 4; false otherwise (C62_source_mutual_exclusion_refuted, an accepted application with a SysTick task). ESP32: locks nested in rising order of ceilings only, at most twelve handlers on C6; false for other nestings (C62_esp_mutual_exclusion_refuted, accepted application). No local field may share its name with a shared one (C07)."
  },
  {
   "property": "C63",
   "status": "proved",
   "theorems": [
    "C63_suspended_task_is_polled_again",
    "C63_at_rest_nothing_is_missed",
    "C63_woken_during_poll_is_marked"
   ],
   "note": "Composition of C15/C16 with C25, C27, C29, C33, C34, C35, C39 in one transition system; the contract between the executor and a component is proved for each component and for products of any number of them."
  },
  {
   "property": "C64",
   "status": "partial",
   "theorems": [
    "C64_ticks_at_the_declared_rate_partial",
    "C64_silabs_runs_too_fast_refuted",
    "C64_refuses_only_unattainable_rates",
    "C64_zero_rate_refused"
   ],
   "note": "Holds for SysTick, STM32, nRF TIMER, LETIMER; false for the Silabs TIMER, whose start accepts 16-bit divisors although the PRESC field has 10 bits (the clock then runs at least twice too fast)."
  },
  {
   "property": "C65",
   "status": "partial",
   "theorems": [
    "C65_async_delay_lasts_long_enough_partial",
    "C65_async_delay_not_late_partial",
    "C65_silabs_delay_too_short_refuted"
   ],
   "note": "Follows from C64 and C37 wherever C64 holds; fails with it for the Silabs TIMER with divisors above 1024."
  },
  {
   "property": "C66",
   "status": "partial",
   "theorems": [
    "C66_accepted_without_disabled_tasks",
    "C66_enabled_tasks_run",
    "C66_only_enabled_tasks_run",
    "C66_thread_mode",
    "C66_ceilings_do_not_fall",
    "C66_configured_interrupts_have_handlers_partial",
    "C66_compiled_mutual_exclusion",
    "C66_disabled_task_interrupt_enabled_refuted",
    "C66_alternatives_refused_refuted"
   ],
   "note": "False in two respects: the interrupt of a disabled hardware task is configured and unmasked although its handler is compiled out, and alternatives under opposite attributes are refused."
  },
  {
   "property": "C67",
   "status": "partial",
   "theorems": [
    "C67_delay_panics_partial",
    "C67_only_timeouts_before_start",
    "C67_started_never_panics",
    "C67_served_after_start",
    "C67_timeout_sleeps",
    "C67_timeout_before_start_refuted"
   ],
   "note": "Proved for delays; false for timeouts (C67_timeout_before_start_refuted): timeout_at does not check initialized (timer_queue.rs 138-153). Monotonics whose counter stands still before start (all but ESP32)."
  },
  {
   "property": "C68",
   "status": "partial",
   "theorems": [
    "C68_not_preempted_cortex",
    "C68_mask_restored_cortex",
    "C68_poll_proceeds_cortex",
    "C68_not_preempted_esp_partial",
    "C68_mask_restored_esp_partial",
    "C68_section_preempted_esp_refuted",
    "C68_init_preempted_esp_refuted",
    "C68_esp_poll_unmasks_refuted"
   ],
   "note": "Proved for the Cortex-M monotonics; ESP32 only if delays are not polled inside critical sections or init, false otherwise (C68_section_preempted_esp_refuted, C68_init_preempted_esp_refuted): pend_interrupt ends with an unconditional riscv::interrupt::enable() (esp32c3.rs 123-133, esp32c6.rs 124-134)."
  },
  {
   "property": "C69",
   "status": "partial",
   "theorems": [
    "C69_symbol_free_partial",
    "C69_tasks_unaffected_partial",
    "C69_timer_delivered_partial",
    "C69_sixteenth_handler_refuted",
    "C69_twelfth_handler_refuted"
   ],
   "note": "Proved with at most 15 handlers (C3) or 11 (C6); with one more the sixteenth/twelfth handler gets CPU interrupt 31 and the name interrupt31 as well (C69_sixteenth_handler_refuted, C69_twelfth_handler_refuted): duplicate symbol at link time."
  },
  {
   "property": "C70",
   "status": "proved",
   "theorems": [
    "C70_one_handler_per_priority",
    "C70_depth",
    "C70_stack_bounded",
    "C70_open_locks"
   ],
   "note": "Handlers of interrupts outside the application (monotonic timers, HAL) add levels of their own. Sizes of frames are parameters (the compiler chooses them)."
  },
  {
   "property": "C71",
   "status": "proved",
   "theorems": [
    "C71_generated_spawners",
    "C71_spawners",
    "C71_same_priority",
    "C71_same_handler",
    "C71_poller_is_the_spawner",
    "C71_never_polled_dead"
   ],
   "note": "The executor part (C71_never_polled_dead) takes \"no spawn of a local task is interrupted by its own dispatcher\" as a condition on the schedule, which C71_poller_is_the_spawner establishes on the machine with preemption."
  },
  {
   "property": "C72",
   "status": "partial",
   "theorems": [
    "C72_basepri_one_section",
    "C72_threshold_one_section_partial",
    "C72_source_one_section_partial",
    "C72_two_words_refuted",
    "C72_exception_refuted",
    "C72_accepted_one_section"
   ],
   "note": "Proved for BASEPRI; ESP32 for locks nested in rising order of ceilings (C06); source masking with interrupt numbers below 32 and no task on a core exception, false otherwise (C72_two_words_refuted: mask words are cleared one by one, cortex_source_mask.rs 207-218, so a lower-priority interrupt of the second word runs in full while a higher one of the first waits; C72_exception_refuted)."
  },
  {
   "property": "C73",
   "status": "proved",
   "theorems": [
    "C73_others_polled_once",
    "C73_bounded_wait",
    "C73_after_spawn",
    "C73_after_wake"
   ],
   "note": ""
  },
  {
   "property": "C74",
   "status": "proved",
   "theorems": [
    "C74_compiles",
    "C74_fits",
    "C74_starts_empty"
   ],
   "note": "The layout of the executor is any that Rust guarantees (exec_layout); repr(C) is the reference's algorithm."
  },
  {
   "property": "C75",
   "status": "proved",
   "theorems": [
    "C75_who_polls",
    "C75_spawned_polled",
    "C75_woken_polled",
    "C75_raised_ran",
    "C75_basepri_comes_to_rest",
    "C75_basepri_reaches_rest",
    "C75_basepri_mutual_exclusion",
    "C75_source_comes_to_rest",
    "C75_source_reaches_rest",
    "C75_esp_comes_to_rest",
    "C75_esp_reaches_rest"
   ],
   "note": "SystemModel composes LockModel (handlers, preemption, locks) with one ExecModel executor per dispatcher; sys_of instantiates it with what the macro generates. C75_*_comes_to_rest: termination of closing steps and absence of deadlock per target; C75_*_reaches_rest: rest is reachable; C75_who_polls/spawned_polled/woken_polled/raised_ran: what rest means for the source. A state after a bad poll (C17, undefined behaviour) is excepted. SLIC not instantiated (no mask register model of its own beyond C04-like threshold). Hypotheses: no_clash (finding C07), at most 12 handlers on ESP32-C6 (finding), source masking: all interrupts enabled and interrupt numbers distinct."
  },
  {
   "property": "C76",
   "status": "proved",
   "theorems": [
    "C76_taken_only_for_cause",
    "C76_comes_to_rest",
    "C76_at_rest",
    "C76_at_rest_nothing_overdue"
   ],
   "note": "taken/asked count interrupt entries and requests along the schedule; C76_comes_to_rest bounds the steps with the clock frozen; C76_at_rest_nothing_overdue combines it with C39. A hardware compare unit that matches again after a full wrap counts as asking again (the model arms one match per set_compare)."
  },
  {
   "property": "C77",
   "status": "partial",
   "theorems": [
    "C77_basepri_serialised",
    "C77_threshold_serialised_partial",
    "C77_source_serialised_partial",
    "C77_accepted_basepri_partial",
    "C77_accepted_source_partial",
    "C77_accepted_esp_partial",
    "C77_exception_lost_update_refuted",
    "C77_esp_lost_update_refuted"
   ],
   "note": "BASEPRI: full. Source masking: full for resources that no task bound to a core exception uses, or of ceiling 4 and more; refuted with a lost update otherwise (accepted application). ESP32: for locks nested in the order of rising ceilings; refuted with a lost update otherwise. Accepted applications carry C54's condition on clashing names. Lock-free resources are C54/C62."
  },
  {
   "property": "C78",
   "status": "partial",
   "theorems": [
    "C78_task_arguments",
    "C78_unambiguous",
    "C78_twice_refused",
    "C78_idle_arguments",
    "C78_init_arguments",
    "C78_order_irrelevant",
    "C78_order_application",
    "C78_written_task",
    "C78_written_idle",
    "C78_written_init",
    "C78_local_task_counts",
    "C78_local_task_refuted",
    "C78_attributes_dropped_refuted",
    "C78_attribute_before_last_refuted",
    "C78_value_ignored_refuted",
    "C78_trailing_comma_refuted"
   ],
   "note": "Proved for all token sequences up to opaque types, expressions and attributes. Refuted: local_task on a hardware task, attributes (also cfg) in front of shared resources and of locals that are struct fields, and the value of #[task = ..] are silently dropped; a trailing comma is accepted in #[task(..)] only."
  },
  {
   "property": "C79",
   "status": "proved",
   "theorems": [
    "C79_init",
    "C79_idle",
    "C79_hardware_task",
    "C79_software_task",
    "C79_own_context",
    "C79_nothing_else"
   ],
   "note": "Types, patterns and attributes are kept only as far as the checks look at them."
  },
  {
   "property": "C80",
   "status": "partial",
   "theorems": [
    "C80_never_aliased",
    "C80_ends_with_run",
    "C80_one_run_each",
    "C80_arguments_partial",
    "C80_no_borrowed_arguments",
    "C80_token_partial",
    "C80_stored_under_partial",
    "C80_arguments_refuted",
    "C80_token_refuted",
    "C80_stored_under_refuted"
   ],
   "note": "References to resources: proved. Arguments: only returning tasks declared in extern blocks with a lifetime in an argument type can dangle, and they do (C80_arguments_refuted): module.rs 148-163 transmutes the whole future to 'static, which also hides the lifetimes of the arguments, so `extern \"Rust\" { #[task] async fn foo(c: foo::Context<'_>, x: &mut u32); }` lets safe code spawn foo with a reference to a local variable. Token: only if init is declared in an extern block with Context<'static>, which main.rs 54 accepts (C80_token_refuted). Storing: only if init spawns a software task that uses a field of the local struct: spawn builds the context at once, with an exclusive reference to memory that is not initialised yet and is written behind it after init (C80_stored_under_refuted, no extern block needed). The borrow checker is modelled by three rules (RefModel.v)."
  },
  {
   "property": "C81",
   "status": "partial",
   "theorems": [
    "C81_arguments",
    "C81_unambiguous",
    "C81_twice_refused",
    "C81_device_needed",
    "C81_order_irrelevant",
    "C81_application",
    "C81_init_context",
    "C81_task_context",
    "C81_complete_partial",
    "C81_dispatcher_attributes_partial",
    "C81_core_refuted",
    "C81_core_slic_refuted",
    "C81_dispatcher_attributes_refuted"
   ],
   "note": "Parsing and contexts: proved. The generated code is complete except for core = false on Cortex-M with any interrupt in use (main then uses a variable that is not declared, C81_core_refuted; C81_complete_partial is an equivalence). core = true is ignored on SLIC. A cfg attribute in front of a dispatcher removes only its handler, not its use (C81_dispatcher_attributes_refuted)."
  },
  {
   "property": "C82",
   "status": "partial",
   "theorems": [
    "C82_names_resolve_partial",
    "C82_literals_complete",
    "C82_types",
    "C82_task_present",
    "C82_lock_present",
    "C82_spawn_present",
    "C82_task_absent",
    "C82_shared_absent",
    "C82_idle_attributes_refuted",
    "C82_types_refuted",
    "C82_constructors",
    "C82_init_context",
    "C82_shared_access",
    "C82_dispatchers"
   ],
   "note": "Names resolve if init and idle are kept (a cfg on idle removes the function but not its call, C82_idle_attributes_refuted). Types: exactly those of what is left and those asserted Send or Sync; the latter include types of compiled-out resources and arguments (C82_types is the equivalence, C82_types_refuted). The rest is proved. Names outside of the application (rtic, core, the device crate) and code of the user are not modelled."
  },
  {
   "property": "C83",
   "status": "proved",
   "theorems": [
    "C83_sender_closed",
    "C83_receiver_closed",
    "C83_receiver_empty",
    "C83_not_empty_is_received",
    "C83_empty_gives_no_value",
    "C83_receiver_full",
    "C83_sender_full",
    "C83_sender_full_predicts",
    "C83_sender_empty",
    "C83_ends_agree",
    "C83_frozen_after_drop",
    "C83_full_after_drop_refuted",
    "C83_ends_differ_refuted",
    "C83_case"
   ],
   "note": "Proved as stated. What happens to the senders' is_full/is_empty after the receiver is dropped is outside of the claim: the drained slots are not put back, so the answers freeze, possibly wrong (C83_frozen_after_drop, C83_full_after_drop_refuted); C83_ends_differ_refuted shows that the ends differ while a slot is in transit."
  },
  {
   "property": "C84",
   "status": "proved",
   "theorems": [
    "C84_one_pair",
    "C84_panics_iff_second",
    "C84_split_once",
    "C84_case"
   ],
   "note": "Proved: the channel behind the macro is always in a state reachable by a channel that is split once (C84_split_once), so C22-C29 and C83 apply to it."
  },
  {
   "property": "C85",
   "status": "proved",
   "theorems": [
    "C85_polls_for_cause",
    "C85_no_poll_without_cause",
    "C85_passes_for_cause",
    "C85_rest_is_quiet"
   ],
   "note": "Proved for one dispatcher and its tasks (the model of C14-C17, C73). Handler entries are bounded for dispatchers of priority 1 and above; the priority-0 dispatcher loops by design, its polls are bounded all the same."
  },
  {
   "property": "C86",
   "status": "proved",
   "theorems": [
    "C86_arbiter_turn",
    "C86_channel_turn"
   ],
   "note": "Proved: the bound is the number of those already in line. It counts drops of the guard and received messages; that the holder drops its guard or the receiver receives is up to the application (C33 shows that an arbiter can be lost, then nothing is dropped any more)."
  },
  {
   "property": "C87",
   "status": "proved",
   "theorems": [
    "C87_signal_once",
    "C87_signal_cause",
    "C87_signal_per_write",
    "C87_recv_once",
    "C87_recv_cause",
    "C87_recv_per_message",
    "C87_send_once",
    "C87_send_per_slot",
    "C87_access_once"
   ],
   "note": "Proved. For delays the same is C39_woken_once_not_early."
  },
  {
   "property": "C88",
   "status": "proved",
   "theorems": [
    "C88_same_backend",
    "C88_selected_builds",
    "C88_none_or_two_fail",
    "C88_foreign_feature_fails",
    "C88_thumbv7_case",
    "C88_two_same_mechanism_case",
    "C88_slic_case"
   ],
   "note": "Proved. Assumed of cargo: features are unified, CARGO_FEATURE_ variables are as documented, cargo::error fails the build. Whether the selected backend suits the target processor is not checked by the code and not claimed."
  },
  {
   "property": "C89",
   "status": "partial",
   "theorems": [
    "C89_no_panic_partial",
    "C89_same_result",
    "C89_accepted_panics_iff_raw",
    "C89_raw_identifier_refuted",
    "C89_missing_item_refuted"
   ],
   "note": "Partial because false as it stands: a raw identifier (r#name) as the name of a function, resource or dispatcher in use makes Ident::new panic, and a missing #[shared], #[local] or #[init] an expect (refuted theorems). Otherwise proved; the compiler shows a panic of the macro as an error without a place, so no code is generated from it. Panics inside syn are not modelled."
  },
  {
   "property": "C90",
   "status": "partial",
   "theorems": [
    "C90_operations_are_atomic",
    "C90_without_overlap",
    "C90_full_then_empty_refuted"
   ],
   "note": "Proved with Full as stated (slots of operations in progress count). In the strict sense, Full only if N values are in the queue, it is false for overlapping operations: C90_full_then_empty_refuted, a task told Full and then Empty while a preempted try_send holds the slot; with operations that do not overlap the strict sense is proved. Empty, NoSender and a pending recv are one outcome here (no value); for NoSender see C28, for a dropped receiver C29."
  },
  {
   "property": "C91",
   "status": "partial",
   "theorems": [
    "C91_declared_interrupts",
    "C91_named_declared",
    "C91_declared_handled",
    "C91_pended_runs",
    "C91_declared_once_partial",
    "C91_declared_once_refuted"
   ],
   "note": "Full, except that a hardware task bound to a generated name (__RTICDispatcher0, ...) makes that name appear twice (C91_declared_once_refuted; such an application is accepted by the macro and then rejected by rustc). What riscv-slic makes of the list is not in the repository."
  },
  {
   "property": "C92",
   "status": "partial",
   "theorems": [
    "C92_started_in_step_partial",
    "C92_no_interrupt_while_starting",
    "C92_counts_half_periods",
    "C92_now_counts_ticks_partial",
    "C92_started_in_step_refuted"
   ],
   "note": "Full, except that the Silabs RTCC must be found as after reset: its _start neither clears flags nor sets the counter (C92_started_in_step_refuted). LETIMER is not covered. The clear tasks of the nRF timers and the clock reset of the STM32 are taken to act at once, and the STM32 metadata to name a reset bit (stm32/meta.rs 51-56 asks for one only to be optional)."
  },
  {
   "property": "C93",
   "status": "partial",
   "theorems": [
    "C93_counts_from_start_partial",
    "C93_at_most_one_ahead",
    "C93_counts_from_start_refuted"
   ],
   "note": "Proved when the counter is found at 0; with less than one period in it now() is at most one tick ahead (C93_at_most_one_ahead); with more the claim is false (C93_counts_from_start_refuted): _start does not clear the current value. Reading CSR is taken to clear COUNTFLAG, and every access of cortex-m to it to read it."
  }
 ]
}