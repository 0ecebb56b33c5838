{"id": "C01", "title": "BASEPRI lock gives mutual exclusion", "statement": "On the BASEPRI backend, for every accepted application and every interrupt schedule, while a task executes inside the closure of `lock` on a shared resource, no other task that accesses that resource executes an access to it, whatever locks are nested in whatever order.", "quantifier": "all task sets, priorities, resources, lock nestings, interrupt arrival sequences and preemption points", "why_tests_cant": "A test drives one interleaving; the property ranges over every preemption point and every schedule.", "anchors": ["rtic/src/export/cortex_basepri.rs: lock, run", "rtic/src/export/cortex_common.rs: cortex_logical2hw", "rtic-macros/src/codegen/shared_resources.rs: codegen", "rtic-macros/src/syntax/analyze.rs: app"]}
{"id": "C02", "title": "BASEPRI lock restores the previous masking and does not over-block", "statement": "Leaving a `lock` closure restores exactly the masking that was in force on entry (at any nesting), leaving a task restores the preempted task's masking, and inside a lock every interrupt with priority strictly above the ceiling can still preempt.", "quantifier": "all nestings of locks and tasks, all ceilings and priority-bit counts", "why_tests_cant": "A test drives one interleaving; the property ranges over every preemption point and every schedule.", "anchors": ["rtic/src/export/cortex_basepri.rs: lock, run"]}
{"id": "C03", "title": "Logical to hardware priority mapping is order reversing and in range", "statement": "For every number of NVIC priority bits and every legal logical priority, the hardware priority written is a valid 8-bit value using only the implemented bits, higher logical priority means strictly smaller hardware value, and distinct logical priorities get distinct hardware priorities.", "quantifier": "all priority-bit counts 1..8 and all logical priorities 1..2^bits", "why_tests_cant": "The map is parameterised by the device; tests run on one device.", "anchors": ["rtic/src/export/cortex_common.rs: cortex_logical2hw", "rtic-monotonics/src/lib.rs: cortex_logical2hw, set_monotonic_prio"]}
{"id": "C04", "title": "Source-masking lock gives mutual exclusion and exact restore", "statement": "On the NVIC source-masking backend, the mask used for a resource with ceiling c disables exactly the interrupts bound to tasks (and dispatchers) of priority 1..c, hence while a task is in `lock` no other interrupt task that accesses the resource runs; on leaving `lock` exactly the interrupts enabled before are enabled again.", "quantifier": "all interrupt numbers, priorities, ceilings, nestings and enabled-interrupt sets", "why_tests_cant": "A test drives one interleaving; the property ranges over every preemption point and every schedule.", "anchors": ["rtic/src/export/cortex_source_mask.rs: create_mask, lock, compute_mask", "rtic-macros/src/codegen/bindings/cortex.rs: interrupt masks"]}
{"id": "C05", "title": "Source-masking lock excludes exception-bound tasks too", "statement": "A hardware task bound to a core exception (e.g. SysTick) that shares a resource is also excluded while another task holds the lock on the source-masking backend.", "quantifier": "all applications accepted by the macro", "why_tests_cant": "Needs a bad interrupt timing to be seen.", "anchors": ["rtic-macros/src/codegen/bindings/cortex.rs: is_exception, extra_mods/masks", "rtic/src/export/cortex_source_mask.rs: lock"]}
{"id": "C06", "title": "ESP32-C3 threshold lock gives mutual exclusion", "statement": "On the ESP32-C3 backend, while a task is inside `lock` on a resource, no other task accessing the resource runs, whatever locks are nested.", "quantifier": "all task sets, nestings and interrupt schedules", "why_tests_cant": "A test drives one interleaving; the property ranges over every preemption point and every schedule.", "anchors": ["rtic/src/export/riscv_esp32c3.rs: lock, run"]}
{"id": "C07", "title": "Resource ceiling is the maximum accessor priority", "statement": "The ceiling the macro computes for each shared resource equals the maximum priority over all tasks (idle, hardware, software) that list the resource; it is independent of declaration order.", "quantifier": "all applications (arbitrary task/resource lists)", "why_tests_cant": "Unbounded set of applications.", "anchors": ["rtic-macros/src/syntax/analyze.rs: app", "rtic-macros/src/syntax/accessors.rs: shared_resource_accesses"]}
{"id": "C08", "title": "lock_free resources are race free", "statement": "If the macro accepts an application, all tasks accessing a `#[lock_free]` resource run at one single priority and none of them is a software (async) task, so no two accesses can interleave.", "quantifier": "all applications", "why_tests_cant": "Unbounded set of applications.", "anchors": ["rtic-macros/src/syntax/analyze.rs: app (lock_free check)"]}
{"id": "C09", "title": "Local resources belong to at most one task", "statement": "If the macro accepts an application, every `local` resource is used by at most one task (init, idle, hardware or software).", "quantifier": "all applications", "why_tests_cant": "Unbounded set of applications.", "anchors": ["rtic-macros/src/syntax/analyze.rs: app (local check)", "rtic-macros/src/codegen/local_resources_struct.rs"]}
{"id": "C10", "title": "Send/Sync obligations cover every cross-priority transfer", "statement": "For every accepted application: a shared resource accessed from two different priorities, or accessed by any task above priority 0, has `Send` asserted; a local resource initialised in init and used above priority 0 has `Send` asserted; a resource accessed by shared reference from tasks of two different priorities has `Sync` asserted; the arguments of every software task that can be spawned from elsewhere have `Send` asserted.", "quantifier": "all applications", "why_tests_cant": "Unbounded set of applications; unsoundness shows only as a data race.", "anchors": ["rtic-macros/src/syntax/analyze.rs: app (send_types, sync_types)", "rtic-macros/src/codegen/assertions.rs"]}
{"id": "C11", "title": "Every software-task priority gets its own dispatcher", "statement": "For every accepted application each non-zero priority used by a software task is bound to exactly one dispatcher interrupt, distinct priorities get distinct dispatchers, no dispatcher is also bound to a hardware task, every dispatcher assigned is a declared one, and an application with too few dispatchers is rejected.", "quantifier": "all applications", "why_tests_cant": "Unbounded set of applications.", "anchors": ["rtic-macros/src/analyze.rs: app", "rtic-macros/src/syntax/check.rs: app", "rtic-macros/src/codegen/bindings/cortex.rs: pre_init_checks/architecture_specific_analysis"]}
{"id": "C12", "title": "Resources are initialised before any task runs", "statement": "No task, idle or dispatcher accesses a shared or local resource before `init` has returned and its value has been stored; interrupts stay disabled from the start of main until after that.", "quantifier": "all interrupt arrival times during start-up", "why_tests_cant": "A test drives one interleaving; the property ranges over every preemption point and every schedule.", "anchors": ["rtic-macros/src/codegen/main.rs: codegen", "rtic-macros/src/codegen/pre_init.rs", "rtic-macros/src/codegen/post_init.rs"]}
{"id": "C13", "title": "Single blocking and deadlock freedom of locks", "statement": "Under the BASEPRI backend `lock` never waits: once a task has started executing it can be delayed only by higher-priority tasks, so no nesting order of locks can deadlock, and a task is dispatched only if its priority exceeds the ceilings of all locks currently held.", "quantifier": "all task sets, nestings and schedules", "why_tests_cant": "A test drives one interleaving; the property ranges over every preemption point and every schedule.", "anchors": ["rtic/src/export/cortex_basepri.rs: lock, run"]}
{"id": "C14", "title": "At most one live instance of each software task", "statement": "At any time at most one instance of an async task exists; `spawn` while an instance is live returns `Err` carrying exactly the arguments passed, and does not disturb the running instance; `spawn` when none is live succeeds.", "quantifier": "all sequences and interleavings of spawn, wake, dispatcher runs, from any priority", "why_tests_cant": "A test drives one interleaving; the property ranges over every preemption point and every schedule.", "anchors": ["rtic/src/export/executor.rs: AsyncTaskExecutor::try_allocate, spawn, poll", "rtic-macros/src/codegen/module.rs: spawn"]}
{"id": "C15", "title": "A spawned task is polled", "statement": "After a successful `spawn` returns, the dispatcher of the task's priority is pending (or its pass is still to reach the task), so the task's future is polled with the arguments of that spawn; no successful spawn is lost.", "quantifier": "all interleavings of spawns from higher/lower/equal priorities with dispatcher passes", "why_tests_cant": "A test drives one interleaving; the property ranges over every preemption point and every schedule.", "anchors": ["rtic/src/export/executor.rs", "rtic-macros/src/codegen/async_dispatchers.rs", "rtic-macros/src/codegen/module.rs"]}
{"id": "C16", "title": "A wake is never lost", "statement": "If a task's waker is invoked at any time after a poll of the task started, the task is polled again after that invocation unless it has completed.", "quantifier": "all interleavings of wakes with polls, including wakes during the poll itself", "why_tests_cant": "A test drives one interleaving; the property ranges over every preemption point and every schedule.", "anchors": ["rtic/src/export/executor.rs: AsyncTaskExecutor::poll, set_pending", "rtic-macros/src/codegen/async_dispatchers.rs"]}
{"id": "C17", "title": "A future is never polled after completion", "statement": "The executor never polls a future that has returned Ready, and never polls a slot between allocation and the storing of the new future.", "quantifier": "all interleavings of spawn, stale wakes and dispatcher preemption", "why_tests_cant": "A test drives one interleaving; the property ranges over every preemption point and every schedule.", "anchors": ["rtic/src/export/executor.rs: poll, spawn, try_allocate", "rtic-macros/src/codegen/module.rs: spawn"]}
{"id": "C18", "title": "Wait queue refines a FIFO list", "statement": "Through any sequence of push, pop and remove on the intrusive wait queue, pop returns the oldest entry that has been neither popped nor removed, is_empty is exact, and no pointer reached is dangling.", "quantifier": "all operation sequences of any length on any number of links", "why_tests_cant": "Unbounded sequences and aliasing.", "anchors": ["rtic-common/src/wait_queue.rs: DoublyLinkedList::push, pop, is_empty; Link::remove_from_list"]}
{"id": "C19", "title": "Removing a wait-queue link removes exactly that link, once", "statement": "remove_from_list takes out exactly its own link wherever it sits, keeps the order of the others, and is a no-op on a link already popped or removed; is_popped is true exactly after pop or removal.", "quantifier": "all queue contents and positions", "why_tests_cant": "Unbounded shapes.", "anchors": ["rtic-common/src/wait_queue.rs: Link::remove_from_list, is_popped"]}
{"id": "C20", "title": "wait_until never misses a wake-up and leaves nothing behind", "statement": "A task in wait_until whose predicate was false at its last poll is in the queue with the waker of that poll (so the next wake reaches it); when it completes or is dropped no link of it remains in the queue; it completes only with a value for which the predicate returned Some at that poll.", "quantifier": "all interleavings of polls, wakes, drops of many waiters", "why_tests_cant": "A test drives one interleaving; the property ranges over every preemption point and every schedule.", "anchors": ["rtic-common/src/wait_queue.rs: DoublyLinkedList::wait_until"]}
{"id": "C21", "title": "Waker registration keeps the newest waker and loses none", "statement": "After any sequence of register/wake, a wake call wakes the most recently registered task not yet woken, and every other task displaced by a registration is itself woken, so no registered waker is dropped silently.", "quantifier": "all sequences of register/wake by any number of tasks", "why_tests_cant": "Unbounded sequences.", "anchors": ["rtic-common/src/waker_registration.rs: CriticalSectionWakerRegistration"]}
{"id": "C22", "title": "Channel delivers each value exactly once, in order", "statement": "The sequence of values returned by receives is a prefix of the sequence of values committed by successful sends in commit order; no value is duplicated, corrupted or invented, under every interleaving of senders and the receiver.", "quantifier": "all interleavings of any number of senders (send, try_send, cancelled sends), and receiver operations", "why_tests_cant": "A test drives one interleaving; the property ranges over every preemption point and every schedule.", "anchors": ["rtic-sync/src/channel.rs: Sender::send, try_send, send_footer; Receiver::try_recv, recv"]}
{"id": "C23", "title": "Channel slots are conserved and never aliased", "statement": "At every instant each of the N slots is in exactly one place (free, ready, held by one sender, handed to one waiter, held by the receiver); so a slot is never written while another party reads or writes it, at most N values are buffered, and no operation panics on an internal queue overflow.", "quantifier": "all interleavings, all N < 256", "why_tests_cant": "A test drives one interleaving; the property ranges over every preemption point and every schedule.", "anchors": ["rtic-sync/src/channel.rs: split, return_free_slot, send_footer, read_slot, access"]}
{"id": "C24", "title": "try_send reports Full/NoReceiver only for cause and never barges", "statement": "try_send returns Full only if another sender was waiting or no slot was free, returns the value unchanged on failure, and never takes a slot while a sender waits in the queue; a value accepted is enqueued.", "quantifier": "all channel states and interleavings", "why_tests_cant": "A test drives one interleaving; the property ranges over every preemption point and every schedule.", "anchors": ["rtic-sync/src/channel.rs: Sender::try_send"]}
{"id": "C25", "title": "Waiting senders are served first-come first-served", "statement": "When slots are freed, waiting `send` futures obtain them in the order they began to wait; a slot freed while somebody waits goes to the longest-waiting sender and that sender is woken.", "quantifier": "all interleavings", "why_tests_cant": "A test drives one interleaving; the property ranges over every preemption point and every schedule.", "anchors": ["rtic-sync/src/channel.rs: return_free_slot, Sender::send"]}
{"id": "C26", "title": "Dropping a send future at any point loses nothing", "statement": "If a send future is dropped before completion, at any point, its value is not delivered, its queue entry disappears, and a slot that had already been handed to it is handed to the next waiter or returned to the free list.", "quantifier": "all cancellation points and interleavings", "why_tests_cant": "Cancellation points are unbounded and timing-dependent.", "anchors": ["rtic-sync/src/channel.rs: Sender::send (dropper), return_free_slot"]}
{"id": "C27", "title": "Receiver never sleeps on a non-empty channel", "statement": "If the receiver's `recv` has returned Pending, then whenever a value is in the channel or all senders are gone, the receiver's waker has been woken since (no lost wake-up).", "quantifier": "all interleavings", "why_tests_cant": "A test drives one interleaving; the property ranges over every preemption point and every schedule.", "anchors": ["rtic-sync/src/channel.rs: recv, send_footer, Drop for Sender"]}
{"id": "C28", "title": "NoSender is reported only when drained", "statement": "A receive reports NoSender only when every sender has been dropped and no value remains in the channel.", "quantifier": "all interleavings of the last send and drop with try_recv", "why_tests_cant": "A test drives one interleaving; the property ranges over every preemption point and every schedule.", "anchors": ["rtic-sync/src/channel.rs: Receiver::try_recv"]}
{"id": "C29", "title": "Dropping the receiver releases every sender and every value", "statement": "After the receiver is dropped every waiting sender is woken and fails with NoReceiver carrying its value, later sends fail likewise, and values buffered in the channel are dropped.", "quantifier": "all interleavings of Receiver drop with sends", "why_tests_cant": "A test drives one interleaving; the property ranges over every preemption point and every schedule.", "anchors": ["rtic-sync/src/channel.rs: Drop for Receiver, Sender::send, try_send"]}
{"id": "C30", "title": "A channel can be split again", "statement": "After both halves have been dropped, `split` yields a fresh working channel: empty, with N free slots, on which sends succeed.", "quantifier": "all histories before the second split", "why_tests_cant": "Needs the history of a previous use.", "anchors": ["rtic-sync/src/channel.rs: Channel::split"]}
{"id": "C31", "title": "Arbiter access is mutually exclusive", "statement": "At any time at most one ExclusiveAccess guard of an Arbiter exists, under every interleaving of access, try_access, cancellation and guard drops.", "quantifier": "all interleavings", "why_tests_cant": "A test drives one interleaving; the property ranges over every preemption point and every schedule.", "anchors": ["rtic-sync/src/arbiter.rs: Arbiter::access, try_access; Drop for ExclusiveAccess"]}
{"id": "C32", "title": "Arbiter serves waiters in FIFO order without barging", "statement": "Waiting access futures obtain the arbiter in the order in which they began to wait and neither access nor try_access overtakes a waiter.", "quantifier": "all interleavings", "why_tests_cant": "A test drives one interleaving; the property ranges over every preemption point and every schedule.", "anchors": ["rtic-sync/src/arbiter.rs"]}
{"id": "C33", "title": "Arbiter is never lost", "statement": "If no guard exists then either the arbiter is free (the next access succeeds) or it has been handed to a woken live waiter; in particular cancelling a pending access never blocks later users.", "quantifier": "all interleavings and cancellation points", "why_tests_cant": "Cancellation timing.", "anchors": ["rtic-sync/src/arbiter.rs: Arbiter::access, Drop for ExclusiveAccess"]}
{"id": "C34", "title": "Signal delivers the latest value and never loses a wake-up", "statement": "SignalReader::wait returns a value written after the last one taken, always the newest; if wait has returned Pending and a value is later written, the reader has been woken; a value is returned at most once; at most one reader exists at a time.", "quantifier": "all interleavings of writers and reader", "why_tests_cant": "A test drives one interleaving; the property ranges over every preemption point and every schedule.", "anchors": ["rtic-sync/src/signal.rs"]}
{"id": "C35", "title": "Watch reports every change", "statement": "After a write to the Watch, a later `changed` call by a reader that has not seen that write completes; a reader sees the newest value and changed does not return twice for one write.", "quantifier": "all interleavings of writes with readers' get/changed", "why_tests_cant": "A test drives one interleaving; the property ranges over every preemption point and every schedule.", "anchors": ["rtic-sync/src/watch.rs"]}
{"id": "C36", "title": "Wrapping tick comparison is an order within half the range", "statement": "For instants within a window shorter than half the tick range, the comparison used by the timer queue agrees with chronological order across any number of wrap-arounds of the counter.", "quantifier": "all instants and all counter wraps, 32- and 64-bit", "why_tests_cant": "2^64 values.", "anchors": ["rtic-time/src/timer_queue/tick_type.rs"]}
{"id": "C37", "title": "A delay never completes early", "statement": "A `delay(d)` / `delay_until(t)` future completes only once the clock has reached the requested deadline, and a delay of d lasts at least d after the call.", "quantifier": "all durations up to the documented limits, start ticks (incl. wrap-around), poll times", "why_tests_cant": "Unbounded times and wraps.", "anchors": ["rtic-time/src/timer_queue.rs: delay, delay_until, Delay::poll", "rtic-time/src/monotonic/timer_queue_based_monotonic.rs"]}
{"id": "C38", "title": "Timer list is sorted, stable and lossless", "statement": "Under any sequence of insert/delete/pop_if, the timer list contains exactly the inserted entries not yet deleted or popped, ordered by deadline and first-come first-served among equal deadlines, insert's result says exactly whether the head changed, and deleting removes exactly the addressed entry.", "quantifier": "all operation sequences", "why_tests_cant": "Unbounded sequences.", "anchors": ["rtic-time/src/linked_list.rs: LinkedList::insert, delete, pop_if"]}
{"id": "C39", "title": "No deadline is missed by the timer interrupt", "statement": "When the timer interrupt handler returns, every entry whose deadline has passed has been woken (each exactly once and in deadline order), and if entries remain the compare is armed for the earliest deadline and that deadline was still in the future after arming; newly inserted earlier deadlines trigger the handler; so every delay is eventually woken.", "quantifier": "all queue contents, insertion times, clock progress during the handler", "why_tests_cant": "A test drives one interleaving; the property ranges over every preemption point and every schedule.", "anchors": ["rtic-time/src/timer_queue.rs: on_monotonic_interrupt, Delay::poll"]}
{"id": "C40", "title": "Dropping a delay leaves no dangling queue entry", "statement": "After a Delay future is dropped, at any point, the timer queue contains no entry of it and other entries are untouched.", "quantifier": "all drop points", "why_tests_cant": "Unsafe pointer; timing-dependent.", "anchors": ["rtic-time/src/timer_queue.rs: Drop for Delay"]}
{"id": "C41", "title": "timeout returns the future's result if it finished, TimeoutError only after the deadline", "statement": "timeout_at/timeout_after returns Ok(v) if the future is ready when polled (even if the deadline has also passed), and TimeoutError only if the future was not ready and the deadline has been reached.", "quantifier": "all futures and deadlines", "why_tests_cant": "Unbounded.", "anchors": ["rtic-time/src/timer_queue.rs: timeout_at, timeout_after, Timeout::poll"]}
{"id": "C42", "title": "Half-period counting yields the true time", "statement": "For every counter width, calculate_now returns the true tick count for any half-period counter value that is current or lags the timer by less than one half period, so time never jumps backwards across overflow.", "quantifier": "all counter values, interrupt latencies below half a period, all widths", "why_tests_cant": "Race between counter and interrupt occurs at rare instants.", "anchors": ["rtic-time/src/half_period_counter.rs: calculate_now"]}
{"id": "C43", "title": "Half-period interrupts stay in step", "statement": "With interrupt latency below one half period, the parity assertions of the monotonic overflow handlers never fire and the half-period counter lags the timer by at most one half period.", "quantifier": "all interrupt latencies", "why_tests_cant": "Timing.", "anchors": ["rtic-monotonics/src/stm32.rs: on_interrupt", "rtic-monotonics/src/nrf/rtc.rs: on_interrupt", "rtic-monotonics/src/imxrt.rs: on_interrupt"]}
{"id": "C44", "title": "The hardware compare value cannot miss the instant", "statement": "set_compare programs a compare value such that a compare (or periodic overflow) interrupt occurs no later than the requested instant (plus the documented minimum), for instants arbitrarily far in the future or already past, and the queue handler re-arms until reached.", "quantifier": "all now/instant pairs", "why_tests_cant": "2^128 pairs.", "anchors": ["rtic-monotonics/src/stm32.rs: set_compare", "rtic-monotonics/src/nrf/rtc.rs: set_compare", "rtic-monotonics/src/imxrt.rs: set_compare", "rtic-monotonics/src/rp2040.rs: set_compare"]}
{"id": "C45", "title": "64-bit time reads from two 32-bit halves are consistent", "statement": "rp2040 now() returns a tick count the timer really had between call and return, whenever carries occur between the register reads.", "quantifier": "all carry timings", "why_tests_cant": "Needs a carry between two instructions.", "anchors": ["rtic-monotonics/src/rp2040.rs: now"]}
{"id": "C46", "title": "SysTick time is monotonic and loses no tick", "statement": "Systick now() counts every SysTick wrap exactly once, whether observed by the interrupt handler or by now() itself, so time never decreases.", "quantifier": "all interleavings of wraps, now() calls and handler runs", "why_tests_cant": "Timing.", "anchors": ["rtic-monotonics/src/systick.rs: now, on_interrupt"]}
{"id": "C47", "title": "Blocking delays last at least the requested time", "statement": "delay_ns/us/ms of the embedded-hal implementations return only after at least the requested time has elapsed.", "quantifier": "all durations and sub-tick phases", "why_tests_cant": "Unbounded.", "anchors": ["rtic-time/src/monotonic/embedded_hal_macros.rs"]}
{"id": "C48", "title": "Generated names of local resources do not clash", "statement": "Two distinct local resources of an accepted application are given distinct static names in the generated code.", "quantifier": "all applications/identifiers", "why_tests_cant": "Unbounded set of identifiers.", "anchors": ["rtic-macros/src/codegen/util.rs: static_local_resource_ident, declared_static_local_resource_ident"]}
{"id": "C49", "title": "A re-polled future wakes through its newest waker", "statement": "If a pending Delay, channel send or arbiter access future is polled again with a different waker, the event that completes it wakes the waker of the latest poll (the contract of Future::poll).", "quantifier": "all sequences of polls with arbitrary wakers", "why_tests_cant": "Executors used in tests always pass the same waker.", "anchors": ["rtic-time/src/timer_queue.rs: Delay::poll", "rtic-sync/src/channel.rs: Sender::send", "rtic-sync/src/arbiter.rs: Arbiter::access"]}
{"id": "C50", "title": "ESP32 64-bit time reads are consistent under preemption", "statement": "On the ESP32-C3/C6 SYSTIMER backends now() returns a tick count the timer had during the call, even if the call is preempted by another call of now() between its register accesses.", "quantifier": "all preemption points and carries", "why_tests_cant": "Needs a preemption between two instructions at a 2^32 carry.", "anchors": ["rtic-monotonics/src/esp32c3.rs: now", "rtic-monotonics/src/esp32c6.rs: now"]}
{"id": "C51", "title": "LETIMER time is the true time", "statement": "On the Silicon Labs LETIMER backend now() is the true tick count, never goes back, and delays never end early.", "quantifier": "all counter values", "why_tests_cant": "The wrong value shows on one tick in 2^24.", "anchors": ["rtic-monotonics/src/silabs/letimer.rs: now"]}
{"id": "C52", "title": "Leaving a source-masking lock re-enables only what it disabled", "statement": "On the NVIC source-masking backend, leaving `lock` re-enables only interrupts that this lock disabled: an interrupt that a preempting higher-priority task disabled meanwhile (NVIC::mask) stays disabled.", "quantifier": "all masks, ceilings and changes made during the lock", "why_tests_cant": "Needs a preemption inside a lock that changes the enabled set.", "anchors": ["rtic/src/export/cortex_source_mask.rs: read_mask, set_enable_mask"]}
{"id": "C53", "title": "Every handler's interrupt is enabled at its priority", "statement": "When start-up is finished and tasks start to run, the interrupt of every hardware task and of every dispatcher is enabled, with the priority the macro assigned to it and no other.", "quantifier": "all accepted applications and start-up schedules", "why_tests_cant": "Depends on the number and order of tasks of the application; a forgotten interrupt shows only as a task that never runs.", "anchors": ["rtic-macros/src/codegen/bindings/cortex.rs: pre_init_enable_interrupts", "rtic-macros/src/codegen/bindings/esp32c6.rs: pre_init_enable_interrupts"]}
{"id": "C54", "title": "Accepted applications have no races on resources", "statement": "End to end: in every application the macro accepts for Cortex-M (BASEPRI), at every moment of every schedule, no two tasks are inside lock on the same shared resource and no two active handlers run tasks that list the same lock_free resource, with the ceilings, priorities and handlers the macro generates.", "quantifier": "all accepted applications, all interrupt schedules", "why_tests_cant": "Quantifies over applications and interleavings.", "anchors": ["rtic-macros/src/syntax/analyze.rs: app", "rtic-macros/src/codegen/shared_resources.rs", "rtic/src/export/cortex_basepri.rs: lock"]}
{"id": "C55", "title": "The timer stays quiet when nothing waits", "statement": "When the timer interrupt has run and no delay is waiting any more, the timer has been disabled, and it stays disabled until the next delay is queued: an idle system takes no further timer interrupts.", "quantifier": "all histories of delays and interrupts", "why_tests_cant": "Depends on the order of the last dequeue and the interrupt.", "anchors": ["rtic-time/src/timer_queue.rs: on_monotonic_interrupt"]}
{"id": "C56", "title": "Transactions of devices sharing a bus do not interleave", "statement": "For any number of SPI and I2C ArbiterDevices (async and blocking) and direct users of one Arbiter, the bus sees one transaction after another. An SPI transaction is: chip select low, the requested operations in order up to the first error, flush, chip select high, and the first error (operation, flush, pin) is returned; flush and chip select high happen even if an operation failed. An I2C operation is one bus call.", "quantifier": "all device sets, operation lists, bus and pin errors, cancellations and schedules", "why_tests_cant": "Interleavings and error positions are unbounded.", "anchors": ["rtic-sync/src/arbiter/spi.rs: transaction", "rtic-sync/src/arbiter/i2c.rs: read, write, write_read, transaction"]}
{"id": "C57", "title": "At most one chip select is asserted", "statement": "At any moment at most one SPI device of a shared bus has its chip select asserted, namely the one that holds the bus, and it is asserted during each of its bus calls.", "quantifier": "all device sets and schedules", "why_tests_cant": "Interleavings and cancellation points are unbounded.", "anchors": ["rtic-sync/src/arbiter/spi.rs: transaction"]}
{"id": "C58", "title": "The timer's interrupt does not delay hardware tasks", "statement": "On Cortex-M the interrupt of a monotonic gets a legal priority (1 to 2^bits) that is below the priority of every hardware task (equal only if both are 1), and is the highest such priority; without hardware tasks it is the highest of all.", "quantifier": "all accepted applications, 1 to 7 priority bits", "why_tests_cant": "Depends on the set of hardware tasks of the application.", "anchors": ["rtic-macros/src/analyze.rs: max_async_prio", "rtic-macros/src/codegen/bindings/cortex.rs: async_prio_limit", "rtic-monotonics/src/lib.rs: set_monotonic_prio"]}
{"id": "C59", "title": "The macro accepts exactly the applications that follow the rules", "statement": "An application with one #[shared] and one #[local] struct is accepted if and only if it follows the documented rules: one init, at most one idle, distinct function names and bound interrupts, no resource listed or declared twice, init returns the right structs; only declared resources are used, no mixed exclusive and shared access, lock_free resources at one priority and not by software tasks, local resources by one task, no software task of priority 0 with idle; distinct dispatchers that are not bound, are supported by the target and are enough; supported priorities. In particular no legal application is rejected.", "quantifier": "all applications and targets", "why_tests_cant": "The set of applications is infinite; tests try a fixed set of files.", "anchors": ["rtic-macros/src/syntax/parse/app.rs: App::parse", "rtic-macros/src/syntax/check.rs: app", "rtic-macros/src/syntax/analyze.rs: app", "rtic-macros/src/codegen/bindings/cortex.rs: architecture_specific_analysis"]}
{"id": "C60", "title": "Start-up completes", "statement": "The start-up code of every accepted application runs through without panicking: all interrupts are configured, init is called and returns, interrupts are switched on and thread mode (idle) is reached.", "quantifier": "all accepted applications and targets", "why_tests_cant": "Depends on the number of handlers of the application and the target.", "anchors": ["rtic-macros/src/codegen/main.rs: codegen", "rtic-macros/src/codegen/bindings/esp32c3.rs: pre_init_enable_interrupts", "rtic/src/export/riscv_esp32c3.rs: enable"]}
{"id": "C61", "title": "Each ESP32 interrupt reaches its own handler", "statement": "On ESP32-C3 and ESP32-C6, once start-up is over, each interrupt bound to a hardware task or used as a dispatcher is routed to an enabled CPU interrupt of its own, with the priority of its task, whose vector is linked to exactly the generated handler of that interrupt; no other source is routed to that handler and the CPU interrupts reserved for the HAL are not used.", "quantifier": "all accepted applications for the two targets", "why_tests_cant": "Numbering depends on the order and number of all tasks.", "anchors": ["rtic-macros/src/codegen/bindings/esp32c3.rs: handler_config, pre_init_enable_interrupts", "rtic-macros/src/codegen/bindings/esp32c6.rs: handler_config, pre_init_enable_interrupts", "rtic/src/export/riscv_esp32c3.rs: enable", "rtic/src/export/riscv_esp32c6.rs: enable"]}
{"id": "C62", "title": "Accepted applications are race free on the targets without BASEPRI", "statement": "End to end: in every application the macro accepts for a Cortex-M0/M0+/M23 (source masking) or an ESP32-C3/C6, at every moment of every schedule, no two tasks are inside lock on the same shared resource, and no task that uses it preempts one inside the lock; on every target, no two active handlers run tasks that list the same lock_free resource.", "quantifier": "all accepted applications, interrupt numberings and interrupt schedules", "why_tests_cant": "Quantifies over applications and interleavings.", "anchors": ["rtic-macros/src/syntax/analyze.rs: app", "rtic-macros/src/codegen/bindings/cortex.rs: source_masking::impl_mutex", "rtic/src/export/cortex_source_mask.rs: lock", "rtic/src/export/riscv_esp32c3.rs: lock", "rtic/src/export/riscv_esp32c6.rs: lock"]}
{"id": "C63", "title": "No task stays suspended although what it waits for has happened", "statement": "The executor and everything its tasks can await, together: when a task of a dispatcher is suspended in recv, send, access, Signal::wait, Watch::changed or a delay, and what it waits for has happened (a value is in the channel or the senders are gone; a slot is free or handed over, or the receiver is gone; the arbiter is free or handed over; a value is stored; a value not marked as seen is stored; the instant has passed), then the task is alive and its waker is about to be called or it is marked for polling with its dispatcher on the way, or is being polled; so once everything has come to rest there is no such task. Required of the tasks: a poll that returns Pending has polled again every future it holds, and no dead future is polled (C17).", "quantifier": "all numbers of tasks, channels, arbiters, signals, watches and delays, and all schedules", "why_tests_cant": "Wake-ups race with polls, registrations and other wake-ups at every point.", "anchors": ["rtic/src/export/executor.rs: poll, set_pending", "rtic-macros/src/codegen/module.rs: codegen", "rtic-macros/src/codegen/async_dispatchers.rs: codegen", "rtic-sync/src/channel.rs: send, recv", "rtic-sync/src/arbiter.rs: access", "rtic-sync/src/signal.rs: wait", "rtic-sync/src/watch.rs: changed", "rtic-time/src/timer_queue.rs: poll, on_monotonic_interrupt"]}
{"id": "C64", "title": "A started monotonic ticks at its declared rate", "statement": "If start(clock) of a SysTick, STM32, Silabs TIMER, nRF TIMER or LETIMER monotonic returns, its clock advances by exactly the declared number of ticks in every second of the source clock; if it panics (nRF: does not compile), no value of the timer's divider register would have given the declared rate.", "quantifier": "all clock frequencies and tick rates (u32), overflow checks on or off", "why_tests_cant": "2^64 combinations of clock and rate; truncation only shows for some divisors.", "anchors": ["rtic-monotonics/src/systick.rs: _start", "rtic-monotonics/src/stm32.rs: _start", "rtic-monotonics/src/silabs/timer.rs: _start", "rtic-monotonics/src/silabs/letimer.rs: _start", "rtic-monotonics/src/nrf/timer.rs: start"]}
{"id": "C65", "title": "embedded-hal async delays last the requested real time", "statement": "delay_ns, delay_us and delay_ms of embedded_hal_async on a started monotonic complete only when at least the requested real time has passed since the call, and every poll made two ticks or more after that is ready (requests below half the clock's range).", "quantifier": "all clocks, rates, durations, phases of the call within a tick, and poll times", "why_tests_cant": "Rounding depends on rate, duration and phase.", "anchors": ["rtic-time/src/monotonic/embedded_hal_macros.rs: impl_embedded_hal_async_delay_fugit", "rtic-time/src/timer_queue.rs: delay", "rtic-monotonics/src/stm32.rs: _start"]}
{"id": "C66", "title": "Tasks compiled out by #[cfg] do not disturb the rest", "statement": "If tasks of an application are disabled by #[cfg], the rest behaves as if they were not written: the application is accepted if it is accepted without them and conversely, every enabled task is run by one handler of its priority, disabled tasks are not run, locks still exclude, and only interrupts that have a handler are switched on.", "quantifier": "all applications and all truth values of the attributes", "why_tests_cant": "The combinations of attributes are exponential and each is a different program.", "anchors": ["rtic-macros/src/codegen/hardware_tasks.rs: codegen", "rtic-macros/src/codegen/async_dispatchers.rs: codegen", "rtic-macros/src/codegen/bindings/cortex.rs: pre_init_enable_interrupts", "rtic-macros/src/syntax/analyze.rs: app"]}
{"id": "C67", "title": "Waiting on a monotonic that was not started panics", "statement": "A delay or timeout asked for before start of its monotonic panics at once instead of sleeping for ever; after start nothing panics any more and everything queued is served.", "quantifier": "all programs and schedules, with start at any point or never", "why_tests_cant": "A sleep without end cannot be observed in finite time, and start may come at any point.", "anchors": ["rtic-time/src/timer_queue.rs: initialize, delay_until, timeout_at, timeout_after"]}
{"id": "C68", "title": "Polling a delay inside a critical section does not end the section", "statement": "Polling a delay leaves the processor's interrupt enable as it found it, so that a critical section of user code, a lock that disables interrupts, or init, in which a delay is polled, is not preempted before it ends.", "quantifier": "all programs, nestings and interrupt schedules, all monotonics", "why_tests_cant": "Depends on whether the delay becomes the head of the queue and on an interrupt arriving just then.", "anchors": ["rtic-time/src/timer_queue.rs: Delay::poll", "rtic-monotonics/src/esp32c3.rs: pend_interrupt", "rtic-monotonics/src/esp32c6.rs: pend_interrupt", "rtic-monotonics/src/stm32.rs: pend_interrupt"]}
{"id": "C69", "title": "The ESP32 monotonic and the tasks do not take each other's interrupts", "statement": "An accepted ESP32-C3 or ESP32-C6 application that starts the SysTimer monotonic in init links and runs: the timer's CPU interrupt and exported handler name are used by no task, every task's interrupt still reaches its own handler at its priority, and the timer's reaches the monotonic's handler.", "quantifier": "all accepted applications for the two targets that do not bind the timer's interrupt", "why_tests_cant": "Numbering depends on the order and number of all tasks.", "anchors": ["rtic-monotonics/src/esp32c3.rs: _start, esp32c3_systimer_monotonic", "rtic-monotonics/src/esp32c6.rs: _start", "rtic-macros/src/codegen/bindings/esp32c3.rs: handler_config, pre_init_enable_interrupts", "rtic-macros/src/codegen/bindings/esp32c6.rs: handler_config"]}
{"id": "C70", "title": "Stack use is bounded when the application is compiled", "statement": "All tasks share one stack, and its depth is bounded by the application text: an active handler has a higher priority than all handlers it has preempted, so at most one handler per priority in use is active (and none twice) beside thread mode; the stack used is at most that of thread mode plus, for each priority in use, that of its largest handler; a task has open locks only on resources it lists, each at most once.", "quantifier": "all applications, masking backends and interrupt schedules", "why_tests_cant": "The deepest nesting needs one particular order of interrupts, each at the worst point of the one below.", "anchors": ["rtic-macros/src/codegen/hardware_tasks.rs: codegen", "rtic-macros/src/codegen/async_dispatchers.rs: codegen", "rtic/src/export/cortex_basepri.rs: run, lock", "rtic/src/export/cortex_source_mask.rs: run, lock"]}
{"id": "C71", "title": "The arguments of a local task stay with one dispatcher", "statement": "A task marked local_task = true can be spawned without unsafe only by software tasks of its own priority, which the same handler polls (priority 0: both in thread mode); while one of them spawns it, that handler is the one running and cannot preempt the spawn. So its arguments, which need not be Send, are never touched by two handlers, and a local task is never polled in the window of C17.", "quantifier": "all accepted applications, all interrupt schedules, all masking backends", "why_tests_cant": "Which handler runs a task depends on all tasks of the application, and the preemption has to hit the spawn.", "anchors": ["rtic-macros/src/codegen/module.rs: codegen", "rtic-macros/src/syntax/analyze.rs: app", "rtic/src/export/executor.rs: poll"]}
{"id": "C72", "title": "Lower-priority code delays an interrupt for at most one critical section", "statement": "While an interrupt is pending, code of lower priority than its task runs only inside one call of lock, which was open when the interrupt became pending and whose ceiling is at least its priority; no handler of lower priority starts meanwhile. So a task of priority p waits for lower-priority tasks at most as long as the longest lock on a resource it or a higher one shares with them.", "quantifier": "all applications, interrupt schedules and moments at which the interrupt becomes pending", "why_tests_cant": "The delay depends on where in a lock, and in which nesting, the interrupt hits.", "anchors": ["rtic/src/export/cortex_basepri.rs: lock, run", "rtic/src/export/cortex_source_mask.rs: lock, clear_enable_mask", "rtic/src/export/riscv_esp32c3.rs: lock, run"]}
{"id": "C73", "title": "Software tasks of one priority take turns", "statement": "From the moment a software task has been spawned or woken until it is polled, every other task of the same priority is polled at most once, however often it is woken: no task starves its neighbours, and at most n-1 polls are made in between if n tasks share the priority (also in the priority-0 loop).", "quantifier": "all numbers of tasks and all interleavings of spawns, wakes and the dispatcher", "why_tests_cant": "Starvation depends on wake-ups timed against the dispatcher's progress through its list.", "anchors": ["rtic-macros/src/codegen/async_dispatchers.rs: codegen", "rtic/src/export/executor.rs: poll, check_and_clear_pending"]}
{"id": "C74", "title": "A task's future fits the storage reserved for it", "statement": "The static reserved for a software task compiles exactly if the task has at most 15 inputs and its future needs no alignment above 16384; then the static is exactly as large and as aligned as the executor kept in it, the future in it is aligned and inside, the flags running and pending are inside and outside the future, and both read as false before the first spawn.", "quantifier": "all sizes, alignments and layouts of the future that Rust allows", "why_tests_cant": "The size and layout of a future is chosen by the compiler for each task.", "anchors": ["rtic/src/export/executor.rs: ExecFn, ExecutorHolder, exec_from_holder, Align", "rtic-macros/src/codegen/util.rs: executor_decl, executor_expr"]}
{"id": "C75", "title": "If user code returns, the whole application comes to rest, and by then everything spawned, woken and raised has run", "statement": "For every application the macro accepts, from every reachable state of the running system (handlers, preemption, locks, dispatchers, spawns and wakers together): if from then on tasks only return or suspend, open spawn/wake calls and locks go on, and no new interrupt is raised, then only finitely many steps are possible, and as long as the system is not at rest (thread mode running outside any lock, no interrupt pended, no dispatcher in a pass, no call open) some step is possible. At rest, every accepted spawn of an interrupt-driven software task has been polled, every such task whose waker was called has been polled since (or its instance has ended), and every hardware task whose interrupt was raised has run since. (The bad poll of C17 excepted.)", "quantifier": "all accepted applications on Cortex-M (BASEPRI and source masking) and ESP32-C3/C6, all interleavings of interrupts, locks, spawns, wakes and polls, any number of tasks", "why_tests_cant": "The guarantee is about every interleaving of every accepted application, combining preemption, masking, per-priority executors and the code generated for the handlers; a test runs one application on one schedule.", "anchors": ["rtic-macros/src/codegen/async_dispatchers.rs", "rtic-macros/src/codegen/hardware_tasks.rs", "rtic-macros/src/codegen/module.rs spawn, waker", "rtic/src/export/executor.rs AsyncTaskExecutor", "rtic/src/export/cortex_basepri.rs lock, run", "rtic/src/export/cortex_source_mask.rs lock", "rtic/src/export/riscv_esp32c3.rs lock, run"]}
{"id": "C76", "title": "The timer interrupt runs only for cause and comes to rest", "statement": "The timer queue's interrupt handler is entered at most once for each time a task pends it or the compare unit matches while enabled. While time stands still and no task acts it is entered at most once more, runs for at most a number of steps linear in the number of queued delays, and when nothing is left to do the handler has returned, no request is pending and no queued delay is overdue.", "quantifier": "all schedules of tasks, handler and clock, any number of delays, any tick width and backend distance", "why_tests_cant": "An interrupt storm or an endless loop of the handler shows only on particular interleavings of a compare match, a pend and the acknowledgement; the claim bounds every schedule.", "anchors": ["rtic-time/src/timer_queue.rs on_monotonic_interrupt 100-139", "rtic-time/src/timer_queue/backend.rs clear_compare_flag, pend_interrupt"]}
{"id": "C77", "title": "Lock closures are serialised; no update is lost", "statement": "The accesses to a shared resource happen as if the closures passed to lock ran one after the other: between the start and the return of one closure no other task touches the resource, each closure starts with the value the previous one left, and every read returns the latest write, although the compiler may keep the value in registers for the whole closure. In particular a read-modify-write done inside lock is never lost.", "quantifier": "all applications, all interleavings of interrupts, tasks, lock calls and accesses, all nesting, all values", "why_tests_cant": "a lost update needs an interrupt between two particular instructions of a closure", "anchors": ["rtic/src/export/cortex_basepri.rs: lock", "rtic/src/export/cortex_source_mask.rs: lock", "rtic/src/export/riscv_esp32c3.rs: lock", "rtic-macros/src/codegen/bindings/cortex.rs: impl_mutex"]}
{"id": "C78", "title": "Attribute arguments mean what is written", "statement": "The arguments of #[task(..)], #[idle(..)] and #[init(..)] (binds, priority, shared, local, local_task) are accepted exactly if each is well-formed, known and given at most once; their order does not matter; an accepted task is bound to the interrupt given, has the priority given (or else 1 when bound and 0 otherwise) and exactly the resources given, by value or by shared reference as written; nothing written is silently dropped.", "quantifier": "all token sequences, all argument lists and orders", "why_tests_cant": "the parser is a hand-written loop over tokens; tests try a few spellings", "anchors": ["rtic-macros/src/syntax/parse.rs: init_args, idle_args, task_args", "rtic-macros/src/syntax/parse/util.rs: parse_shared_resources, parse_local_resources, filter_attributes", "rtic-macros/src/syntax/parse/app.rs: App::parse"]}
{"id": "C79", "title": "The signatures of init, idle and tasks are checked", "statement": "A function with #[init], #[idle] or #[task] is accepted exactly if it has the documented signature: private, not const, not unsafe, not generic, no ABI, its own name::Context as the first argument; init returns the pair of resource structs, idle returns !, a hardware task takes nothing else and returns (), a software task is async and returns () or !; further arguments and the return kind are taken as written. A returning software task declared in an extern block may not ask for a 'static context.", "quantifier": "all function signatures (modifiers, arguments with their types and lifetimes, return types), all four kinds of function, in the module or in an extern block", "why_tests_cant": "signatures form an infinite set; compile-fail tests cover a few wrong ones", "anchors": ["rtic-macros/src/syntax/parse/util.rs: check_fn_signature, check_foreign_fn_signature, parse_inputs, is_valid_context, type_is_bottom, type_is_unit, type_is_init_return", "rtic-macros/src/syntax/parse/{init,idle,hardware_task,software_task}.rs: parse, parse_foreign"]}
{"id": "C80", "title": "References handed to tasks do not outlive what they refer to", "statement": "In an application that compiles, whatever the functions do with the references in their contexts (store them in statics, send them away), there are never two exclusive references to the same local or lock-free resource; a reference exists only during the run it was made for, except in init and idle, which run once. A task never holds an argument that refers to a variable of a function that has returned, and the CriticalSection given to init is gone when interrupts are enabled. While the values returned by init are stored, no reference to one of these resources exists.", "quantifier": "all accepted applications, all combinations of functions in the module and in extern blocks with or without 'static contexts, all histories of runs, spawns and stored references", "why_tests_cant": "aliasing and dangling references are undefined behaviour that needs particular histories; tests and compile-fail tests see single programs", "anchors": ["rtic-macros/src/codegen/module.rs: codegen (spawn, transmute)", "rtic-macros/src/codegen/hardware_tasks.rs: codegen", "rtic-macros/src/codegen/software_tasks.rs: codegen", "rtic-macros/src/codegen/local_resources_struct.rs: codegen", "rtic-macros/src/codegen/shared_resources_struct.rs: codegen", "rtic-macros/src/syntax.rs: runs_once", "rtic-macros/src/codegen/main.rs: codegen", "rtic/src/export/executor.rs: assert_task_diverges, spawn"]}
{"id": "C81", "title": "The arguments of #[app] mean what is written", "statement": "#[app(..)] is accepted exactly if its arguments are well-formed, none is given twice, no dispatcher is listed twice and the device is named; their order does not matter. The application has the dispatchers listed, init's context has the core peripherals unless core = false, the device's peripherals unless peripherals = false, and the critical-section token, no other function has them; every context has its local and shared resources and the means to spawn local tasks of its priority, if there are any. The generated code is complete: what it uses is declared, and attributes of a dispatcher apply to all that concerns it.", "quantifier": "all token sequences as arguments, all accepted applications, all backends, all conditions of cfg attributes", "why_tests_cant": "compile tests cover a few combinations of arguments and backends", "anchors": ["rtic-macros/src/syntax/parse/app.rs: AppArgs::parse", "rtic-macros/src/codegen/module.rs: codegen", "rtic-macros/src/codegen/pre_init.rs: codegen", "rtic-macros/src/codegen/main.rs: codegen", "rtic-macros/src/codegen/async_dispatchers.rs: codegen", "rtic-macros/src/codegen/bindings/cortex.rs: pre_init_enable_interrupts", "rtic-macros/src/codegen/bindings/riscv_slic.rs: pre_init_preprocessing"]}
{"id": "C82", "title": "The generated program fits together whatever #[cfg] removes", "statement": "For every accepted application and every choice of tasks, resources and local resources compiled out by their #[cfg] attributes, what is left of the generated program refers only to items that are left, its constructors give every remaining field a value, and it mentions only types of things that are left. A task that is left has its context, handler, resource fields, spawn, waker and local spawners; a resource that is left can be locked unless it is lock-free; those of a task or resource compiled out do not exist.", "quantifier": "all accepted applications, all backends, all truth assignments to the cfg attributes, all names and types", "why_tests_cant": "compile tests build a handful of feature combinations of a handful of applications", "anchors": ["rtic-macros/src/codegen.rs: app", "rtic-macros/src/codegen/module.rs: codegen", "rtic-macros/src/codegen/local_resources_struct.rs: codegen", "rtic-macros/src/codegen/shared_resources_struct.rs: codegen", "rtic-macros/src/codegen/shared_resources.rs: codegen", "rtic-macros/src/codegen/local_resources.rs: codegen", "rtic-macros/src/codegen/hardware_tasks.rs: codegen", "rtic-macros/src/codegen/software_tasks.rs: codegen", "rtic-macros/src/codegen/async_dispatchers.rs: codegen", "rtic-macros/src/codegen/main.rs: codegen", "rtic-macros/src/codegen/assertions.rs: codegen", "rtic-macros/src/codegen/util.rs"]}
{"id": "C83", "title": "The queries of a channel tell the truth", "statement": "Sender::is_closed says exactly whether the receiver is being or has been dropped, Receiver::is_closed exactly whether every sender is gone, and neither answer is ever taken back. Receiver::is_empty means that everything sent was received; if it says no, a try_recv started then returns the oldest value whatever the senders do meanwhile. Receiver::is_full means that as many values wait as there are slots. While the receiver lives, Sender::is_full predicts exactly whether an undisturbed try_send sends, and Sender::is_empty means that nothing is in, going into or coming out of the channel and nobody waits; with no operation under way the two ends agree.", "quantifier": "all capacities, numbers of senders, schedules and values", "why_tests_cant": "the answers depend on where every slot is at that moment, which depends on the interleaving", "anchors": ["rtic-sync/src/channel.rs: Sender::is_closed", "rtic-sync/src/channel.rs: Sender::is_full", "rtic-sync/src/channel.rs: Sender::is_empty", "rtic-sync/src/channel.rs: Receiver::is_closed", "rtic-sync/src/channel.rs: Receiver::is_full", "rtic-sync/src/channel.rs: Receiver::is_empty"]}
{"id": "C84", "title": "One use of make_channel! gives out at most one pair of ends", "statement": "However often and from whichever tasks the code around one make_channel! is executed, at most one execution returns a Sender and a Receiver, a later one panics, and the first never does; the channel behind it is split once only, so it always behaves like a freshly created one.", "quantifier": "all numbers of executions, all interleavings of their steps with all uses of the channel", "why_tests_cant": "two executions may interleave between check and split", "anchors": ["rtic-sync/src/channel.rs: make_channel!", "rtic-sync/src/channel.rs: Channel::split"]}
{"id": "C85", "title": "The executor works only for cause", "statement": "In every history a software task is polled at most once for each accepted spawn of it and each call of its waker; spawns and wakes of other tasks never get it polled. The dispatcher's interrupt handler is entered at most once for each completed spawn or wake of its tasks, and when it is not pended, idle and nobody is spawning or waking, nothing but a new spawn or wake can make it run.", "quantifier": "all schedules of any number of spawning and waking contexts and of the dispatcher, all sets of tasks, histories of any length", "why_tests_cant": "the bound is about every history; stale wakes, wakes during a poll and spawns preempted between their steps must not add polls", "anchors": ["rtic/src/export/executor.rs: AsyncTaskExecutor::poll, check_and_clear_pending, spawn", "rtic-macros/src/codegen/module.rs: spawn, waker", "rtic-macros/src/codegen/async_dispatchers.rs"]}
{"id": "C86", "title": "Bounded waiting: nobody who comes later is served first", "statement": "From the moment a client waits for an arbiter, unless it gives up, the guard is dropped at most once for each client that was waiting before it and once more before the arbiter is handed to it and its waker called. From the moment a send waits for a slot, unless its future is dropped, at most one message is received for each send that was waiting before it, and then a freed slot is handed to it and its waker called; otherwise the receiver has been dropped. Clients that come later, tries, cancellations and new sends never push it back.", "quantifier": "all numbers of clients and senders, all schedules and histories of any length after the wait began", "why_tests_cant": "the bound is about every continuation of every history; a test sees a few interleavings of a few clients", "anchors": ["rtic-sync/src/arbiter.rs: Arbiter::access, try_access, ExclusiveAccess::drop", "rtic-sync/src/channel.rs: Sender::send, try_send, Receiver::recv, return_free_slot", "rtic-common/src/wait_queue.rs: push, pop, remove_from_list"]}
{"id": "C87", "title": "Wakers are called only for cause", "statement": "A waker handed to a poll of recv, send, access, Signal::wait or Watch::changed is called at most once for that poll. The receiver's waker is called only by a send that returns Ok with it, by the drop of the last sender, or when recv is polled with another waker; with one waker, at most once per message and once for the end. A reader's waker is called only by a write or clear (at most once each) or by a poll with another waker. For each slot that becomes free at most one waiting sender is woken, the others only when the receiver is gone; for each dropped arbiter guard at most one client.", "quantifier": "all histories of any number of senders, writers, readers and clients, any length, any wakers", "why_tests_cant": "it bounds the calls over every history, whatever is cancelled, polled again or preempted in between; with C85 it bounds how often tasks are polled", "anchors": ["rtic-common/src/waker_registration.rs: register, wake", "rtic-sync/src/channel.rs: send_footer, return_free_slot, Sender::drop, Receiver::recv, Receiver::drop", "rtic-sync/src/signal.rs: write_inner, wait", "rtic-sync/src/watch.rs: changed", "rtic-sync/src/arbiter.rs: ExclusiveAccess::drop"]}
{"id": "C88", "title": "The library and the macro are built for the same, single backend", "statement": "Whatever features the crates of a build turn on, either the build fails or exactly one backend feature of rtic is on, exactly one locking mechanism is compiled into the library and exactly one into the #[app] macro, and both are that backend's. Turning on one backend and nothing else is accepted; none, two (even with the same mechanism), or a foreign feature on the macro crate is refused.", "quantifier": "all sets of enabled features of rtic and rtic-macros, all environments and orders of environment variables", "why_tests_cant": "the feature sets are 2^8 by 2^7, unified over a whole dependency graph, and the scripts read an unordered environment", "anchors": ["rtic/build.rs: backends, main", "rtic-macros/build.rs: non_default_features, main", "rtic/Cargo.toml: features", "rtic/src/export.rs", "rtic-macros/src/codegen/bindings.rs", "rtic-macros/src/syntax/backend.rs"]}
{"id": "C89", "title": "The #[app] macro reports mistakes as errors and does not panic", "statement": "Whatever application it is given, the macro either generates code or reports an error at a place in the source; none of its internal expectations (look-ups, indices, assertions, subtractions, identifiers it forms) fails. Proved for all applications with a #[shared] struct, a #[local] struct and an #[init] function and without raw identifiers (correct or not); for correct applications it panics exactly if a name in use is a raw identifier.", "quantifier": "all backends, dispatcher lists and lists of items, accepted or refused", "why_tests_cant": "the panics sit behind combinations of mistakes spread over the application; a test tries the mistakes its author thought of", "anchors": ["rtic-macros/src/syntax/parse/app.rs: App::parse", "rtic-macros/src/syntax/analyze.rs: app", "rtic-macros/src/analyze.rs: app", "rtic-macros/src/codegen/util.rs", "rtic-macros/src/codegen/module.rs: codegen", "rtic-macros/src/codegen/async_dispatchers.rs: codegen", "rtic-macros/src/codegen/bindings"]}
{"id": "C90", "title": "Channel operations are atomic", "statement": "Whatever preempts whatever, the results of the operations on a channel are those of a queue of at most N values on which every send and every receive acts at a single instant between its call and its return: an accepted value is appended at that instant, a receive removes the oldest value or finds the queue empty, a refused or cancelled send changes nothing. Full is reported only if the queue and the other operations in progress together account for N slots; if no operations overlap, only if the queue holds N values.", "quantifier": "all capacities, numbers of senders, values and interleavings of their steps, as long as the receiver is not dropped", "why_tests_cant": "linearisability quantifies over all interleavings and all ways to order overlapping operations", "anchors": ["rtic-sync/src/channel.rs: Sender::try_send, Sender::send, send_footer, return_free_slot, Receiver::try_recv, Receiver::recv"]}
{"id": "C91", "title": "SLIC: every software interrupt is declared once, handled once and has its priority", "statement": "For an accepted application of the SLIC target, the list of software interrupts handed to riscv-slic consists of the interrupts the hardware tasks are bound to and one generated dispatcher for each nonzero priority of a software task, none twice; every interrupt the generated code names (checks, set_priority, spawn, wakers, dispatchers, handlers) is in it; every one in it has exactly one handler and exactly one set_priority, with the priority of the tasks the handler runs; spawning or waking a task pends the interrupt whose handler runs the task.", "quantifier": "all accepted applications for SLIC", "why_tests_cant": "The list and the dispatchers' names are computed from all tasks and priorities of the application; an interrupt left out or declared twice breaks only the applications that use it.", "anchors": ["rtic-macros/src/codegen/bindings/riscv_slic.rs: pre_init_preprocessing, pre_init_checks, pre_init_enable_interrupts, extra_modules", "rtic-macros/src/codegen/module.rs: codegen", "rtic-macros/src/codegen/async_dispatchers.rs: codegen"]}
{"id": "C92", "title": "Starting a timer leaves it in step", "statement": "Whatever state a timer's registers and flags were left in, _start leaves it so that, from when its interrupt is unmasked, both half-period interrupts are enabled and the priority is set, the counter runs with the full period, the half-period counter together with the pending flags is the number of half periods passed, now() is the value the counter was set to plus the ticks since, and the handler's assertions hold; the handler never runs before _start has come to its end.", "quantifier": "all states of the peripheral's registers, flags and half-period counter at the start, all interleavings of ticks, accesses of _start and steps of the handler, for the STM32, nRF RTC and TIMER, i.MX RT GPT, Silabs TIMER and RTCC drivers; starting takes less than half a period", "why_tests_cant": "A unit test starts the timer from the reset state, with no tick between two accesses; a flag left over or one raised between two accesses is counted once and time is off by half a period for ever.", "anchors": ["rtic-monotonics/src/stm32.rs: _start", "rtic-monotonics/src/stm32/meta.rs: reset", "rtic-monotonics/src/nrf/rtc.rs: _start", "rtic-monotonics/src/nrf/timer.rs: _start", "rtic-monotonics/src/imxrt.rs: _start", "rtic-monotonics/src/silabs/timer.rs: _start", "rtic-monotonics/src/silabs/rtcc.rs: _start"]}
{"id": "C93", "title": "SysTick counts from its start", "statement": "After start returned, the SysTick monotonic's now() has grown by exactly the number of whole periods of the declared rate that passed on the SysTick clock since, whatever the registers held before, provided every wrap is counted (by the handler or now()) before the next.", "quantifier": "all clock and tick rates start accepts, all states of the SysTick registers before, all runs of clocks and counts, both widths of the counter", "why_tests_cant": "The value SysTick's counter holds at the start is unknown after reset; a test sees one value, and time off by one run of the counter shows only against another clock.", "anchors": ["rtic-monotonics/src/systick.rs: _start, now, on_interrupt"]}
