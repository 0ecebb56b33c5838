STATUS={
 'C07':'partial','C10':'partial','C48':'partial','C53':'partial','C54':'partial',
 'C03':'partial','C05':'partial','C06':'partial','C52':'partial',
 'C17':'partial', 'C20':'partial', 'C28':'partial', 'C29':'partial', 'C30':'partial', 'C33':'partial', 'C35':'partial', 'C49':'partial', 'C50':'partial', 'C51':'partial', 'C57':'partial', 'C60':'partial', 'C61':'partial', 'C62':'partial', 'C64':'partial', 'C65':'partial', 'C66':'partial', 'C67':'partial', 'C68':'partial', 'C69':'partial', 'C72':'partial', 'C77':'partial', 'C78':'partial', 'C80':'partial', 'C81':'partial', 'C82':'partial', 'C89':'partial', 'C90':'partial', 'C91':'partial', 'C92':'partial', 'C93':'partial',
}
NOTES={
 'C64':'Holds for SysTick, STM32, nRF TIMER, LETIMER; false for the Silabs TIMER, whose start accepts 16-bit divisors although the PRESC field has 10 bits (the clock then runs at least twice too fast).',
 'C65':'Follows from C64 and C37 wherever C64 holds; fails with it for the Silabs TIMER with divisors above 1024.',
 'C66':'False in two respects: the interrupt of a disabled hardware task is configured and unmasked although its handler is compiled out, and alternatives under opposite attributes are refused.',
 'C49':'False of the code: Delay keeps the waker of its first poll (harmless under the RTIC executor, which always passes the same waker, not under select/join combinators).',
 'C50':'Proved when no other now() runs between latch and reads; refuted otherwise: esp32c3.rs 82-93 has no critical section.',
 'C51':'now() is one tick ahead on the last tick of each 2^24 period (cnt == 0 is mapped to 0, letimer.rs 128-137); monotone, but delays can end up to a tick early (refuted).',
 'C43':'Latency assumption: each half-period interrupt is served before the next boundary. The width of the counter variable is not modelled.',
 'C44':'Together with C39 (re-check after arming). Hardware compare units modelled as equality comparators on the counter.',
 'C47':"fugit's Instant arithmetic (external) modelled as wrapping add / half-range comparison and *_at_least as ceiling division.",

 'C18':'Pointer code refines a FIFO list for every history the safety contract allows.',
 'C20':'The lost wake-up clause is false of the code (C20_no_lost_wakeup_refuted: closure evaluated outside the critical section before the link is pushed, wait_queue.rs 246-265); everything else proved, and the clause proved when no waiter is in that window.',
 'C37':'Needs d+1 <= 2^(w-1); beyond it a delay is ready at once (C37_delay_beyond_half_range_refuted), as the documented limit of wrapping time implies.',
 'C39':'Liveness is stated as: an interrupt is pending/armed for every queued entry, and the handler run to completion serves all due entries; schedules keep deadlines within half the tick range.',
 'C22':'Every step is one critical section / one atomic access; any number of sender handles, any schedule. Values are polymorphic.',
 'C28':'Half proved: NoSender implies every sender is gone. The drained half is false of the code (C28_no_sender_only_when_drained_refuted): try_recv checks the ready queue (channel.rs 593-596) before the sender count (610-614), in separate critical sections, so a last sender that sends and is dropped in between loses its value from the view of a receiver that stops at NoSender.',
 'C29':'Proved: waiting senders are woken and fail with their value, operations without a slot never commit after the drop, buffered values are dropped exactly once. False: a try_send past its receiver check when the receiver is dropped reports Ok and its value stays in the dead channel (C29_ok_after_drop_refuted).',
 'C30':'False of the code: split does not reset receiver_dropped, so the second channel always fails with NoReceiver (C30_resplit_refuted, for every reachable state); after the race of C29 the debug_assert in split fails too.',
 'C33':'Proved for schedules that never drop a future between its hand-over and its next poll; false otherwise (C33_cancel_after_handover_refuted + C33_lost_for_ever_refuted): the dropper (arbiter.rs 83-88) does not pass the arbiter on, so taken stays true and no guard is ever granted again.',
 'C35':'Proved in full when no write falls between the reader reading a value and marking it seen; false otherwise (C35_write_lost_refuted): watch.rs 187-190 reads and marks in two separate steps, so the second write is marked seen without having been returned and changed() sleeps on it.',
 'C14':'One dispatcher with any list of tasks; spawning and waking contexts interleave after every atomic access (a superset of preemption by priority).',
 'C15':'The theorems about whole executions carry the condition that no bad poll (C17) ended the execution.',
 'C16':'As C15. The priority-0 dispatcher (endless loop) is covered by the per-pass theorem.',
 'C17':'Proved: each poll that completes normally is of the live instance; a bad poll needs a spawn preempted between try_allocate and the write of the future while a stale wake is pending; impossible if the dispatcher cannot preempt such a spawn. False otherwise (C17_polled_after_completion_refuted): try_allocate sets running before the future is written (executor.rs 253-268) and pending is not cleared, so a dispatcher that preempts a lower-priority spawn polls the old, completed future (undefined behaviour). In the whole application (SystemModel): a bad poll needs the dispatcher to have preempted a lower-priority task in the middle of its spawn, or a handler that is no task to be in one (C17_bad_poll_preempts_spawner_partial); none if tasks spawn only tasks of at most their own priority (C17_no_bad_poll_downward_partial); it does happen in an accepted application (C17_accepted_application_refuted).',

 'C01':'1..7 priority bits, any application whose ceilings cover the priorities of the users (C07 proves that of the macro), any nesting; interrupts between any two register accesses.',
 'C02':'Also gives exact restore after preempting handlers (run) and back to BASEPRI = 0 when idle.',
 'C03':'Proved for 1..7 implemented bits; with 8 bits the u8 expression 1 << bits overflows for every priority (C03_eight_bits_refuted), cortex_common.rs 5-7.',
 'C04':'Mutual exclusion for resources not used by exception-bound tasks (those: C05).',
 'C05':'False of the code: exceptions are left out of the masks (bindings/cortex.rs 68-96) and the macro accepts such applications; C05_exception_task_excluded_refuted. Proved when the ceiling is >= 4 (critical section).',
 'C06':'Registers restored and nothing masked too much: proved for any nesting. Mutual exclusion proved when locks are nested with non-decreasing ceilings; false otherwise (C06_any_nesting_refuted): lock writes ceiling + 1 without taking the maximum with the current threshold (riscv_esp32c3.rs 61-69), so an inner lock of lower ceiling lowers it. The trap entry is assumed to let only strictly higher priorities preempt.',
 'C13':'BASEPRI backend. Deadlock freedom: progress in every reachable state plus termination of every schedule without new interrupts, tasks and locks.',
 'C52':'False of the code: read_mask saves whole NVIC words and set_enable_mask writes them back (cortex_source_mask.rs 181-204), so an interrupt disabled by a preempting task in the same word is enabled again (C52_reenables_refuted). Proved: nothing outside entry/exit sets is enabled, untouched words are left alone.',
 'C07':'Proved unless a task uses a #[local] field with the name of the shared resource; then false of the code (C07_ceiling_refuted): analyze.rs 242-258 stores the ownership of local resources in the same map as that of shared ones, overwriting the ceiling. C07_ceiling_of_clash gives the value in that case.',
 'C10':'Sync proved in full; Send proved unless the name clash of C07 hits the resource (C10_send_refuted).',
 'C08':'Run-time half: C54_lock_free_*.',
 'C11':'For the SLIC backend dispatcher names are generated; distinctness from hardware task names is stated for the other backends.',
 'C12':'Interrupt sources are assumed off at reset; code of init may switch on any interrupt source but not the global flag (unsafe).',
 'C48':'False of the code: names are concatenated with underscores (codegen/util.rs 139-149), C48_names_refuted, C48_field_names_refuted (the consequence is a compile error on a valid application). Proved when no task name is another followed by an underscore; shared names never clash.',
 'C53':'Proved for Cortex-M and ESP32-C3, and for ESP32-C6 with at most twelve handlers; for SLIC if no hardware task is bound to a generated dispatcher name (C53_slic_handlers_enabled, C91); false for more than twelve on ESP32-C6 (C53_handlers_enabled_refuted): esp32c6.rs 97-104 zips with the list of twelve CPU interrupts and drops the rest silently.',
 'C54':'Needs no name clash as in C07; with one, both tasks are in the lock at once (C54_accepted_mutual_exclusion_refuted).',
 'C56':'Buffers and word types are abstract (an operation is a number); a pin operation is one step.',
 'C58':'Other uses of RTIC_ASYNC_MAX_LOGICAL_PRIO (async HAL drivers) are outside the repository.',
 'C59':'ESP32-C6: with at most eight hardware tasks (beyond twelve handlers not all priorities are checked, C53). With more than one struct of a kind: C59_structs says what is enforced and C59_one_struct_refuted that two #[shared] structs are accepted if the first is empty (app.rs 309-346). Rules about function signatures and cfg attributes are outside the model.',
 'C57':'Proved when no future is dropped in the middle of a transaction and no chip select pin fails; false otherwise (C57_dropped_transaction_refuted): transaction has no drop guard (spi.rs 46-73), so a cancelled transaction leaves its chip select low while the next device uses the bus.',
 'C60':'Proved except for ESP32-C3 with more than sixteen handlers, where it is false (C60_start_up_refuted): esp32c3.rs 93 numbers CPU interrupts from 16 without limit, and rtic::export::enable(.., 32) indexes a 32-entry register array and shifts a u32 by 32.',
 'C61':'ESP32-C3: for every application that starts up (C60). ESP32-C6: with at most twelve handlers; false for more (C61_interrupt_reaches_handler_refuted, same cause as C53). Code of init is assumed not to reprogram the interrupt matrix.',
 'C63':'Composition of C15/C16 with C25, C27, C29, C33, C34, C35, C39 in one transition system; the contract between the executor and a component is proved for each component and for products of any number of them.',
 'C62':'Lock-free: every target. Source masking: resources no exception-bound task lists, or listed at priority 4; false otherwise (C62_source_mutual_exclusion_refuted, an accepted application with a SysTick task). ESP32: locks nested in rising order of ceilings only, at most twelve handlers on C6; false for other nestings (C62_esp_mutual_exclusion_refuted, accepted application). No local field may share its name with a shared one (C07).',
 'C67':'Proved for delays; false for timeouts (C67_timeout_before_start_refuted): timeout_at does not check initialized (timer_queue.rs 138-153). Monotonics whose counter stands still before start (all but ESP32).',
 'C68':'Proved for the Cortex-M monotonics; ESP32 only if delays are not polled inside critical sections or init, false otherwise (C68_section_preempted_esp_refuted, C68_init_preempted_esp_refuted): pend_interrupt ends with an unconditional riscv::interrupt::enable() (esp32c3.rs 123-133, esp32c6.rs 124-134).',
 'C70':'Handlers of interrupts outside the application (monotonic timers, HAL) add levels of their own. Sizes of frames are parameters (the compiler chooses them).',
 'C69':'Proved with at most 15 handlers (C3) or 11 (C6); with one more the sixteenth/twelfth handler gets CPU interrupt 31 and the name interrupt31 as well (C69_sixteenth_handler_refuted, C69_twelfth_handler_refuted): duplicate symbol at link time.',
 'C71':'The executor part (C71_never_polled_dead) takes "no spawn of a local task is interrupted by its own dispatcher" as a condition on the schedule, which C71_poller_is_the_spawner establishes on the machine with preemption.',
 'C72':'Proved for BASEPRI; ESP32 for locks nested in rising order of ceilings (C06); source masking with interrupt numbers below 32 and no task on a core exception, false otherwise (C72_two_words_refuted: mask words are cleared one by one, cortex_source_mask.rs 207-218, so a lower-priority interrupt of the second word runs in full while a higher one of the first waits; C72_exception_refuted).',
 'C74':"The layout of the executor is any that Rust guarantees (exec_layout); repr(C) is the reference's algorithm.",
 'C75':'SystemModel composes LockModel (handlers, preemption, locks) with one ExecModel executor per dispatcher; sys_of instantiates it with what the macro generates. C75_*_comes_to_rest: termination of closing steps and absence of deadlock per target; C75_*_reaches_rest: rest is reachable; C75_who_polls/spawned_polled/woken_polled/raised_ran: what rest means for the source. A state after a bad poll (C17, undefined behaviour) is excepted. SLIC not instantiated (no mask register model of its own beyond C04-like threshold). Hypotheses: no_clash (finding C07), at most 12 handlers on ESP32-C6 (finding), source masking: all interrupts enabled and interrupt numbers distinct.',
 'C76':'taken/asked count interrupt entries and requests along the schedule; C76_comes_to_rest bounds the steps with the clock frozen; C76_at_rest_nothing_overdue combines it with C39. A hardware compare unit that matches again after a full wrap counts as asking again (the model arms one match per set_compare).',
 'C77':"BASEPRI: full. Source masking: full for resources that no task bound to a core exception uses, or of ceiling 4 and more; refuted with a lost update otherwise (accepted application). ESP32: for locks nested in the order of rising ceilings; refuted with a lost update otherwise. Accepted applications carry C54's condition on clashing names. Lock-free resources are C54/C62.",
 'C78':'Proved for all token sequences up to opaque types, expressions and attributes. Refuted: local_task on a hardware task, attributes (also cfg) in front of shared resources and of locals that are struct fields, and the value of #[task = ..] are silently dropped; a trailing comma is accepted in #[task(..)] only.',
 'C79':'Types, patterns and attributes are kept only as far as the checks look at them.',
 'C80':'References to resources: proved. Arguments: only returning tasks declared in extern blocks with a lifetime in an argument type can dangle, and they do (C80_arguments_refuted): module.rs 148-163 transmutes the whole future to \'static, which also hides the lifetimes of the arguments, so `extern "Rust" { #[task] async fn foo(c: foo::Context<\'_>, x: &mut u32); }` lets safe code spawn foo with a reference to a local variable. Token: only if init is declared in an extern block with Context<\'static>, which main.rs 54 accepts (C80_token_refuted). Storing: only if init spawns a software task that uses a field of the local struct: spawn builds the context at once, with an exclusive reference to memory that is not initialised yet and is written behind it after init (C80_stored_under_refuted, no extern block needed). The borrow checker is modelled by three rules (RefModel.v).',
 'C81':'Parsing and contexts: proved. The generated code is complete except for core = false on Cortex-M with any interrupt in use (main then uses a variable that is not declared, C81_core_refuted; C81_complete_partial is an equivalence). core = true is ignored on SLIC. A cfg attribute in front of a dispatcher removes only its handler, not its use (C81_dispatcher_attributes_refuted).',
 'C82':'Names resolve if init and idle are kept (a cfg on idle removes the function but not its call, C82_idle_attributes_refuted). Types: exactly those of what is left and those asserted Send or Sync; the latter include types of compiled-out resources and arguments (C82_types is the equivalence, C82_types_refuted). The rest is proved. Names outside of the application (rtic, core, the device crate) and code of the user are not modelled.',
 'C83':"Proved as stated. What happens to the senders' is_full/is_empty after the receiver is dropped is outside of the claim: the drained slots are not put back, so the answers freeze, possibly wrong (C83_frozen_after_drop, C83_full_after_drop_refuted); C83_ends_differ_refuted shows that the ends differ while a slot is in transit.",
 'C84':'Proved: the channel behind the macro is always in a state reachable by a channel that is split once (C84_split_once), so C22-C29 and C83 apply to it.',
 'C85':'Proved for one dispatcher and its tasks (the model of C14-C17, C73). Handler entries are bounded for dispatchers of priority 1 and above; the priority-0 dispatcher loops by design, its polls are bounded all the same.',
 'C86':'Proved: the bound is the number of those already in line. It counts drops of the guard and received messages; that the holder drops its guard or the receiver receives is up to the application (C33 shows that an arbiter can be lost, then nothing is dropped any more).',
 'C87':'Proved. For delays the same is C39_woken_once_not_early.',
 'C88':'Proved. Assumed of cargo: features are unified, CARGO_FEATURE_ variables are as documented, cargo::error fails the build. Whether the selected backend suits the target processor is not checked by the code and not claimed.',
 'C89':'Partial because false as it stands: a raw identifier (r#name) as the name of a function, resource or dispatcher in use makes Ident::new panic, and a missing #[shared], #[local] or #[init] an expect (refuted theorems). Otherwise proved; the compiler shows a panic of the macro as an error without a place, so no code is generated from it. Panics inside syn are not modelled.',
 'C90':'Proved with Full as stated (slots of operations in progress count). In the strict sense, Full only if N values are in the queue, it is false for overlapping operations: C90_full_then_empty_refuted, a task told Full and then Empty while a preempted try_send holds the slot; with operations that do not overlap the strict sense is proved. Empty, NoSender and a pending recv are one outcome here (no value); for NoSender see C28, for a dropped receiver C29.',
 'C91':'Full, except that a hardware task bound to a generated name (__RTICDispatcher0, ...) makes that name appear twice (C91_declared_once_refuted; such an application is accepted by the macro and then rejected by rustc). What riscv-slic makes of the list is not in the repository.',
 'C92':'Full, except that the Silabs RTCC must be found as after reset: its _start neither clears flags nor sets the counter (C92_started_in_step_refuted). LETIMER is not covered. The clear tasks of the nRF timers and the clock reset of the STM32 are taken to act at once, and the STM32 metadata to name a reset bit (stm32/meta.rs 51-56 asks for one only to be optional).',
 'C93':'Proved when the counter is found at 0; with less than one period in it now() is at most one tick ahead (C93_at_most_one_ahead); with more the claim is false (C93_counts_from_start_refuted): _start does not clear the current value. Reading CSR is taken to clear COUNTFLAG, and every access of cortex-m to it to read it.',
}
