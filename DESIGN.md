# Formal model of rtic-rs/rtic in Rocq (Coq 8.16.1)

## 1. Method

* Everything is under `rocq/theories`, written with the standard library only.  `properties.jsonl` lists the
  properties, `MANIFEST.json` the theorems that carry them; both are generated (`tools/gen_properties.py`,
  `tools/gen_manifest.py` with the notes of `tools/notes.py`).
* Per subsystem: `*Model.v` (the code, every definition with the cited lines), `*Spec.v` (the small vocabulary
  the theorems are stated in, no proofs), `*Proofs.v` and similar (invariants), `Properties*.v` (the theorems
  `Cnn_*`, each followed by a concrete non-trivial case `Cnn_case*`).
* Sequential code becomes total functions; `&mut` becomes returning the new value; pointers become addresses in
  an explicit heap, so that a dangling dereference is an explicit error (`None`) and its absence is part of the
  theorem.
* Concurrent code becomes a labelled transition system given by an executable step function (`LTS.v`).  The unit
  of atomicity is the `critical_section::with` block, or one atomic access outside of one; everything between two
  of them is a separate program counter, so every preemption between them is represented.  Numbers of tasks,
  senders, waiters, clients, resources are unbounded; schedules are arbitrary lists of labels.
* Where the unchanged code violates the English property, a theorem `Cnn_*_refuted` exhibits the execution, and
  the strongest part found true is proved as `Cnn_*_partial` (or under a guard that the statement names).  The
  status of such a property is `partial`.

## 2. Property by property

| id | modelled in | how it is proved |
|----|-------------|------------------|
| C01 C02 C13 | `LockModel` (machine: nested handlers, tasks, lock calls with every register access a step), `LockBackends.basepri_backend` | invariant over all steps: the stack of frames is ordered by priority and the mask in force is the fold of the open locks (`LockProofs`, generic in the backend; `LockBackendProofs` checks the backend's contract). C13: rank function + progress |
| C03 | `LockBackends.logical2hw`, `monotonic_prio` (u8 arithmetic with overflow = error) | arithmetic; 8 bits refuted |
| C04 C05 C52 | `LockBackends.source_backend`: NVIC words as `list N`, `set_bit`, `create_mask`, `compute_mask`, per-word writes | bit-level lemmas (`LockSourceProofs`) + the generic invariant; C05, C52 refuted by executions |
| C06 | `LockBackends.thresh_backend` | generic invariant: registers restored and no overblocking for any nesting, mutual exclusion for non-decreasing nesting; for any nesting refuted |
| C07-C11 C48 | `AppModel`: parser of the items, syntax checks, analysis, dispatcher assignment, generated names; `AppSpec`: what the user wrote | parser inversion (`AppProofs`), loops by induction with exact characterisations (`AppAnalysis`, `AppChecks`), `AppFinal` |
| C12 C53 C60 | `AppStart`: the statements of the generated `main` with interrupts arriving at any time | invariant on the remaining statements (`AppStartProofs`) |
| C55 | `TimerQueueModel` | invariant: empty list, interrupt done => timer disabled (`TimerQueueProofs`) |
| C58 | `AppModel.async_limit` fed to `LockBackends.monotonic_prio` | minimum of the hardware priorities (`PropertiesAccept`) |
| C59 | `AppModel.expand`; `AppAcceptSpec`: the rules, read off the source items | each check shown equivalent to its rule (`AppAccept`: parser, `AppAcceptChecks`: checks, analysis, targets) |
| C56 C57 | `BusModel`: SPI/I2C devices as clients of the arbiter of `ArbiterModel`, one step per bus call, pin access or await; `BusSpec`: grammar of a whole transaction, what the schedule asked for | invariant: log = whole visits + the beginning of the visit of the client holding the arbiter (`BusProofs`); chip select by program counter |
| C54 | `AppRun`: the accepted application run on the machine of `LockModel` | C07 + C01/C13 |
| C14-C17 | `ExecModel`: flags `running`/`pending`, slot, spawners and wakers with program counters, dispatcher pass; on Cortex-M the interrupt is acknowledged on entry (`LDispatch`), on ESP32 the handler starts with the interrupt still pended and clears it itself (`LAccept`, `DEnter`: bindings/esp32c3.rs `async_entry`) | invariants over log and state (`ExecProofs`), measure of a pass (`ExecProgress`); C17 refuted by an execution |
| C18 C19 | `WaitQueueModel` on a heap; `WaitQueueSpec`: FIFO list with life cycles | representation predicate, forward simulation |
| C20 | `WaitUntilModel` | invariant; lost wake-up refuted |
| C61 | `AppStart.ic_enable`, `AppRoute`: interrupt matrix registers, exported vector names | invariant of start-up; distinct names and ids |
| C63 | `ComposeModel.ystep` over `ComposeSpec.world` (executor x channels x arbiters x signals x watches x timer queue) | contract per component, closed under products; invariant: a woken future's task is marked, about to be woken, or being polled |
| C64 C65 | `StartModel.start` (u32 arithmetic with overflow checks on or off), `tick_period` (what the divider register does), `hal_async_deadline` | arithmetic; C37 for the delays; Silabs TIMER refuted |
| C66 | `AppCfg.compiled_vectors`, `lapp_cfg`: the generated code after rustc dropped the items of disabled tasks | C59's rules are closed under removal of tasks; C54 for the rest; refuted for interrupts of disabled tasks |
| C67 | `UnstartedModel`: the timer queue with the `initialized` flag and a clock that stands still before `start` | invariant over schedules; refuted for timeouts |
| C68 | `PollMask`: the enable bit during `Delay::poll` and `pend_interrupt`, access by access, with preemption and nested critical sections | invariant; refuted on ESP32 |
| C69 | `timer_started`: the interrupt matrix after the SysTimer monotonic's start, over `AppRoute` | from C61 and the numbering; refuted with 16 (12) handlers |
| C70 | `StackBound`: the stack of `LockModel` for any backend; `lapp_of x` for any generated application | invariant (strictly decreasing priorities down the stack, entries without duplicates), then a sum over distinct priorities |
| C71 | `can_spawn` of AppModel, the generated handlers, `lapp_of x` on the machine of LockModel for any backend, ExecModel | from C11/C12-style facts about `vectors`; stack invariant of `StackBound`; C17's window |
| C72 | the machine of LockModel with any backend that masks in one register write | invariant along the wait: the low part of the stack is that of the start except inside the blocking call, or lets the interrupt through (`Blocking`); refuted for source masking with two mask words or exceptions |
| C62 | `AppRun.lapp_of` on the machines of C04 and C06 | composition of the macro's theorems with the lock theorems; rising stack for lock_free |
| C21 | `WakerRegModel` | induction over histories |
| C22-C30 | `ChannelModel`; `ChannelSpec` | invariants: queue bookkeeping (`ChannelInv`), slot ownership (`ChannelOwn`), counts and wake-up (`ChannelProofs`), traces (`ChannelTrace`), consequences (`ChannelMore`, `ChannelFinal`); C28-C30 refuted in part |
| C31-C33 | `ArbiterModel`; `ArbiterSpec` | invariants; C33 refuted under cancellation |
| C34 C35 | `SignalModel`; `SignalSpec` | invariants, refinement to a mailbox; C35 refuted for the read/mark race |
| C36 | `TicksModel` | modular arithmetic, any width |
| C37 C41 | `TicksModel`, `TimerQueueModel` | arithmetic, inversion on poll |
| C38 | `TimerListModel` on a heap; `TimerListSpec` | forward simulation to stable insertion |
| C39 C40 C49 | `TimerQueueModel`: delays, handler, clock, compare unit | invariants; progress by a measure; C49 refuted |
| C42 C43 | `MonoModel.calculate_now`, `hps_step` | bit arithmetic, invariant for the three interrupt orders |
| C44 | `MonoModel.compare_*`, `letimer_compare` | modular arithmetic |
| C45 C50 | `MonoModel.rp_loop`, `esp_step` | monotone reads; C50 refuted under preemption |
| C46 | `MonoModel.sys_step` | invariant |
| C47 | `MonoModel.hal_*` | arithmetic |
| C51 | `MonoModel.letimer_*` | arithmetic; refuted in part |
| C73 | ExecModel: the dispatcher's passes over its list of tasks, any interleaving | decreasing measure: occurrences of the other task before the ready one in (rest of this pass ++ next pass); a pass is a suffix of the list |
| C74 | `LayoutModel`: repr(C) layout, `ExecutorHolder`, the assertions and the transmute | arithmetic on powers of two, any layout of the executor |
| C75 | `SystemModel`: lock machine and executors in one transition system, `SystemApp.sys_of` for accepted applications | invariant + well-founded measure on the whole state, progress by case analysis; per backend only `backend_base` (registers restored) needed |
| C76 | `TimerQueueModel` | counting invariant and a measure on handler phase, pend flags and queue length |
| C77 | Lock machine with resource values: a closure works on a copy loaded after the masking writes and stored when it returns (LockAccess.v); independent spec of serial histories of one variable (SerialSpec.v) | invariant: the open closure of the history is the frame that holds the resource; uses mutual exclusion of all reachable states (C01, C04-C06, C54, C62) |
| C78 | The argument parsers over tokens (AttrModel.v); independent grammar (AttrSpec.v) | parser = grammar, by induction on the tokens; unambiguity; permutation of arguments; composition with the macro model: a written task is the `src_task` of C51-C62 |
| C79 | The signature checks function by function (SigModel.v); the documented signatures written down directly (SigSpec.v) | equivalence for each kind, by case analysis on signatures and induction on argument lists |
| C80 | Lifetimes chosen by the generated code and a machine of runs, references, stores and spawns over any accepted application (RefModel.v) | invariant: every reference belongs to a run in progress or to a function that runs once, places are distinct (C08, C09 make contexts disjoint); refutations on accepted applications |
| C81 | The parser of `#[app(..)]` over tokens and what is generated from its result (ArgsModel.v) | grammar in ArgsSpec.v, parser = grammar by induction on tokens; contexts read off the source through C59's parse lemmas; refutations on accepted applications |
| C82 | The generated program as a list of Rust items with the names and types each part defines and mentions, and the cfg attributes in front of it (GenModel.v, GenSpec.v) | case analysis over items of the program, names separated by their suffixes; lookups justified by the parse and check lemmas of C59; refutations on an accepted application; contents of the context of `init`, of shared-resource fields and of the dispatchers as equivalences (PropertiesGen2.v) |
| C83 | The six query functions as functions of the channel state of C22-C30 (ChannelQuery.v) | counting slots with the ownership invariant of C23; a phase invariant of one try_recv under interference; an invariant for the time after the drop |
| C84 | One use of the macro: CHECK, the calls' program counters and the channel (MakeChannel.v) | inductive invariant; simulation by the channel machine |
| C85 | The executor model of C14-C17 | invariant counting the mark of a task and the spawns under way (a duplicate-free list of contexts) against accepted spawns and wakes; potential for handler entries |
| C86 | The models of C31-C33 and C22-C30 | the number of entries in front of the waiter is a variant: no step raises it, each drop or receive lowers it or serves the waiter |
| C87 | The models of C22-C35 | potentials: calls so far plus registered or queued wakers are at most the polls; calls plus sends that have yet to notify are at most the messages |
| C88 | BuildModel: both build scripts over strings, the feature tables, the cfg conditions of the modules | string lemmas, then cases over the table; environments are any lists with the documented variables |
| C89 | PanicModel: parsing, checks, analysis and code generation as a three-valued computation (panic, error, result), with every expect, unwrap, index, assertion, u8 subtraction and Ident::new | each is discharged from what the earlier passes checked (`ready`); agreement with `expand`; exact characterisation for accepted applications; refutations by simulation of the parser on the shortened item list |
| C90 | the channel machine of C22-C29; calls and returns read off its labels and events; independent specification `atomic` (a queue, an instant for every operation) | forward simulation: commit, pop, refusal and cancellation are the instants; Full by counting the holders of slots; strict sense for operations that do not overlap, refuted otherwise |
| C91 | `SlicModel`: the list given to `codegen!`, the calls of set_priority, the interrupts pended by spawn, wakers and dispatchers | sets and permutations of lists from the analysis (C11); counting: as many dispatchers are generated as priorities exist |
| C92 | `TimerInitModel`: every `_start` as a list of register accesses, the counter ticking in between, then the handler of `MonoModel` | a forward analysis of what is known after each access, sound for every number of ticks in between, then the invariant of the handler (MonoProofs) |
| C93 | `SystickModel`: `_start`, the 24-bit counter at the level of clocks, handler and `now` as single steps (their insides: C46) | an invariant: clocks passed = first wrap + wraps x period - clocks to the next wrap |
Liveness properties are stated as safety plus progress: an invariant that the wake-up, interrupt or poll is
pending, together with a theorem that a bounded number of the component's own steps delivers it, for every
interleaving of other steps allowed in the statement.

## 3. Findings (properties false of the code)

| property | theorem | cause |
|---|---|---|
| C03 | `C03_eight_bits_refuted` | `1 << 8` in u8, cortex_common.rs 5-7 |
| C05 | `C05_exception_task_excluded_refuted` | exceptions are not in the masks, bindings/cortex.rs 68-96 |
| C06 | `C06_any_nesting_refuted` | `lock` writes `ceiling + 1` without a maximum, riscv_esp32c3.rs 61-69 |
| C07 C10 C54 | `C07_ceiling_refuted`, `C10_send_refuted`, `C54_accepted_mutual_exclusion_refuted` | local resources overwrite the ownership of shared ones of the same name, syntax/analyze.rs 242-258 |
| C17 | `C17_polled_after_completion_refuted` | `running` set before the future is written, executor.rs 253-268 |
| C20 | `C20_no_lost_wakeup_refuted` | closure evaluated before the link is pushed, wait_queue.rs 246-265 |
| C28 | `C28_no_sender_only_when_drained_refuted` | ready queue checked before the sender count, channel.rs 593-614 |
| C29 | `C29_ok_after_drop_refuted` | receiver check and commit in different critical sections |
| C30 | `C30_resplit_refuted` | `split` does not reset `receiver_dropped` |
| C33 | `C33_cancel_after_handover_refuted`, `C33_lost_for_ever_refuted` | dropper does not pass the arbiter on, arbiter.rs 83-88 |
| C35 | `C35_write_lost_refuted` | value read and marked seen separately, watch.rs 187-190 |
| C37 | `C37_delay_beyond_half_range_refuted` | documented limit of wrapping ticks |
| C48 | `C48_names_refuted`, `C48_field_names_refuted` | names joined by underscores, codegen/util.rs 139-149 |
| C49 | `C49_delay_newest_waker_refuted` | `Delay` keeps the waker of its first poll |
| C50 | `C50_*_refuted` | two unprotected 32-bit reads, esp32c3.rs 82-93 |
| C51 | `C51_letimer_delay_never_early_refuted` | `cnt == 0` mapped to 0, letimer.rs 128-137 |
| C52 | `C52_reenables_refuted` | whole NVIC words written back, cortex_source_mask.rs 181-204 |
| C57 | `C57_dropped_transaction_refuted` | no drop guard around chip select, arbiter/spi.rs 46-73 |
| C59 | `C59_one_struct_refuted` | a second `#[shared]` struct is refused only if the first has fields, syntax/parse/app.rs 309-346 |
| C53 C61 | `C53_handlers_enabled_refuted`, `C61_interrupt_reaches_handler_refuted` | zip with twelve CPU interrupts, esp32c6.rs 97-104 |
| C60 | `C60_start_up_refuted` | CPU interrupts numbered from 16 without limit, esp32c3.rs 87-99: the 17th handler gets id 32 and `enable` panics |
| C62 | `C62_source_mutual_exclusion_refuted`, `C62_esp_mutual_exclusion_refuted` | the causes of C05 and C06, with applications the macro accepts |
| C64 C65 | `C64_silabs_runs_too_fast_refuted`, `C65_silabs_delay_too_short_refuted` | divisor checked against u16, field has 10 bits, silabs/timer.rs 335-337 |
| C66 | `C66_disabled_task_interrupt_enabled_refuted`, `C66_alternatives_refused_refuted` | start-up statements carry no `cfg`, cortex.rs 204-265; parser and analysis ignore `cfg` |
| C67 | `C67_timeout_before_start_refuted` | `timeout_at` does not check `initialized`, timer_queue.rs 138-153 |
| C68 | `C68_section_preempted_esp_refuted`, `C68_init_preempted_esp_refuted`, `C68_esp_poll_unmasks_refuted` | unconditional `interrupt::enable()`, esp32c3.rs 123-133 |
| C69 | `C69_sixteenth_handler_refuted`, `C69_twelfth_handler_refuted` | CPU interrupt 31 used by both the monotonic and the last task, esp32c3.rs 50, bindings/esp32c3.rs 87-99 |
| C72 | `C72_two_words_refuted`, `C72_exception_refuted` | mask words cleared one by one, cortex_source_mask.rs 207-218; exceptions not maskable (C05) |
| C17 | `C17_accepted_application_refuted` | the same in an accepted application with real preemption: `work` (priority 1) mid-spawn of `log` (3), `uart` (2) calls an old waker |
| C77 | rtic/src/export/cortex_source_mask.rs 88-218, riscv_esp32c3.rs 52-77 | The known exclusion gaps (core exceptions on source masking; ESP32 locks nested inside one of higher ceiling) lose updates of `*r += 1` inside `lock` (`C77_exception_lost_update_refuted`, `C77_esp_lost_update_refuted`) |
| C78 | rtic-macros/src/syntax/parse.rs 314-341 | `local_task` is accepted on a hardware task and has no effect (`C78_local_task_refuted`) |
| C78 | rtic-macros/src/syntax/parse/util.rs 99-126, 182-186, 232-253 | `#[cfg(..)]` in front of a resource in `shared = [..]`, or of a struct-field resource in `local = [..]`, is accepted and ignored; any other attribute is refused in front of a local resource unless that is the last one without a trailing comma (`C78_attributes_dropped_refuted`, `C78_attribute_before_last_refuted`) |
| C78 | rtic-macros/src/syntax/parse/app.rs 230, 250, 277 | `unwrap_or_default` turns `#[task = ..]` into `#[task]` (`C78_value_ignored_refuted`) |
| C78 | rtic-macros/src/syntax/parse.rs 82-112, 140-178 | a comma after the last argument is refused in `#[idle(..)]` and `#[init(..)]`, accepted in `#[task(..)]` (`C78_trailing_comma_refuted`) |
| C80 | rtic-macros/src/codegen/module.rs 148-163 | the future of a returning `extern` task is transmuted to `'static` together with its arguments: `spawn` accepts references to local variables, which dangle when the spawner returns (`C80_arguments_refuted`) |
| C80 | rtic-macros/src/codegen/main.rs 54 | an `extern` init may take `init::Context<'static>` and keep the `CriticalSection` after interrupts are enabled (`C80_token_refuted`) |
| C80 | rtic-macros/src/codegen/module.rs 137-141, post_init.rs 26-41 | `spawn` called in init builds the task's context at once, so an exclusive reference to a local resource exists before the value returned by init is written behind it (`C80_stored_under_refuted`) |
| C81 | rtic-macros/src/codegen/pre_init.rs 14, bindings/cortex.rs 230-261 | `core = false` on Cortex-M: `core` is not declared but used to set priorities, so any application with an interrupt fails to compile (`C81_core_refuted`) |
| C81 | rtic-macros/src/codegen/bindings/riscv_slic.rs 67 | `core = true` is silently ignored on SLIC (`C81_core_slic_refuted`) |
| C81 | rtic-macros/src/codegen/async_dispatchers.rs 57, analyze.rs 26-58 | `#[cfg]` on a dispatcher removes its handler only: it is still assigned, enabled and pended (`C81_dispatcher_attributes_refuted`) |
| C82 | rtic-macros/src/codegen/idle.rs 39-52, main.rs 19-27 | `#[cfg]` on `idle` removes the function only: `main` still calls it (`C82_idle_attributes_refuted`) |
| C82 | rtic-macros/src/codegen/assertions.rs 9-24 | `Send`/`Sync` assertions carry no attributes: the type of a resource or argument that is compiled out must exist all the same (`C82_types_refuted`) |
| C83 | rtic-sync/src/channel.rs 675-685, 513-526 | dropping the receiver discards the buffered values without returning their slots: `Sender::is_full` may stay true and `Sender::is_empty` false for ever on an empty, closed channel (`C83_full_after_drop_refuted`) |
| C89 | rtic-macros/src/codegen/util.rs 9-17, 133-157 | names are formed with `Ident::new(&format!(..{name}..))`: a task, resource or dispatcher with a raw identifier (`async fn r#match`) makes the macro panic (`C89_raw_identifier_refuted`) |
| C89 | rtic-macros/src/syntax/parse/app.rs 509-513 | a missing `#[shared]`, `#[local]` or `#[init]` is a panic of the macro, not an error with a place (`C89_missing_item_refuted`) |
| C90 | rtic-sync/src/channel.rs 361-385 | `try_send` takes its slot before the value can be received: a task that preempts it on a channel of one slot gets `Full` from `try_send` and then `Empty` from `try_recv`, which no order of the operations explains (`C90_full_then_empty_refuted`) |
| C91 | rtic-macros/src/codegen/bindings/riscv_slic.rs 82-88, 205-220 | the generated dispatcher names are not checked against the `binds` of hardware tasks: a task bound to `__RTICDispatcher0` is accepted and the name is declared and defined twice (`C91_declared_once_refuted`) |
| C92 | rtic-monotonics/src/silabs/rtcc.rs 59-90 | `_start` of the RTCC clears neither the counter nor the flags nor the half-period counter: with the half-period flag left over (a bootloader, a warm start) the first interrupt counts a half period that has not passed and `now` is a full period ahead (`C92_started_in_step_refuted`) |
| C93 | rtic-monotonics/src/systick.rs 95-112 | `_start` does not clear the current value (unknown after reset, ARMv7-M B3.3.1): the first tick comes when what was found there has been counted down, up to 2^24 clocks (a second at 16 MHz) late (`C93_counts_from_start_refuted`) |

## 4. Trusted base

* Coq 8.16.1's kernel and `coqc`.
* Axioms: none.  `Print Assumptions` says "Closed under the global context" for every theorem `Cnn_*`; the only
  axiom-like constants in the loaded standard library are the fields of `Coq.ssr.ssrunder.Under_rel` (opaque
  module of the ssreflect tactics, loaded but not used by any theorem).
* The correspondence between the definitions and the cited source lines, established by reading.
* Hardware behaviour as written in the models: BASEPRI / BASEPRI_MAX / PRIMASK, NVIC ISER / ICER, the ESP32
  threshold register, priority-ordered preemption (only strictly higher priorities preempt), COUNTFLAG
  clear-on-read, compare units as equality comparators; sequential consistency on a single core; each register or
  atomic access is indivisible; dividers of timers as in `StartModel.tick_period` (the 10 bits of the Silabs PRESC
  field are taken from the driver's own message "max divisor 1024").
* The seeded wrong programs of `seeded/LOG.jsonl` were checked with `seeded/mutate.py`.

## 5. What is modelled and what is not

Modelled: rtic-common (wait_queue.rs, waker_registration.rs, dropper.rs where used), rtic-sync (channel.rs,
arbiter.rs, arbiter/spi.rs, arbiter/i2c.rs, signal.rs, watch.rs), rtic-time (linked_list.rs, timer_queue.rs, tick_type.rs,
half_period_counter.rs), rtic-monotonics (systick, rp2040/rp235x, stm32, nrf rtc/timer, imxrt, esp32c3/c6 and the
silabs timers: `now`, compare computation, half-period interrupts; embedded-hal blocking delays; the priority of
the timer interrupt), rtic (export/executor.rs, cortex_basepri.rs, cortex_source_mask.rs,
riscv_esp32c3.rs, riscv_esp32c6.rs, cortex_common.rs), rtic-macros (parsing to items, checks, analysis, dispatcher
assignment, ceilings, Send/Sync lists, start-up, handlers, names of statics, ESP32 interrupt routing, attribute
arguments, function signatures, its panics (C89), the build scripts and feature tables, lifetimes of contexts, the generated items with their names, types and `#[cfg]` attributes).

Not modelled: tokens other than those of attribute arguments (C78), spans, error texts, `#[cfg]` only as far as C66, C81 and C82 go; user code except through the operations it may call; Rust's
type system (its consequences — borrow rules, `Send` checks by rustc — are used as stated in the model comments);
LLVM, memory orderings, multi-core; panics inside user code; the `loom` variants, `defmt`; peripheral set-up (clock trees, pin muxing); external crates (heapless,
critical-section, fugit, portable-atomic), which are modelled by their documented behaviour (a `Deque` is a bounded
list, `critical_section::with` is atomic, fugit instants wrap).
The start-up model assumes that interrupt sources are off at reset (timer set-up: C92).  For SLIC, what riscv-slic makes of the list of interrupts (C91) is outside.
