(** Model of starting a monotonic (tick rate set-up) and of the embedded-hal delays on top of it.
    rtic-monotonics: systick.rs 94-113, stm32.rs 321-332 / 464-475, silabs/timer.rs 317-337,
    silabs/letimer.rs 67-86, nrf/timer.rs 127-141 and 256 ff. (prescaler register), imxrt.rs 159 ff. and
    the RP/ESP timers have no rate to set up and are not modelled here.
    rtic-time: monotonic/embedded_hal_macros.rs 46-77. *)
From Coq Require Import ZArith List.
From Verif Require Import TicksModel MonoModel.
Import ListNotations.
Open Scope Z_scope.

(** u32 arithmetic; [None] is a panic.  [checked]: overflow checks on (debug) or off (release, wraps).
    Division and remainder by zero panic in both. *)
Definition sub32 (checked : bool) (a b : Z) : option Z :=
  if b <=? a then Some (a - b) else if checked then None else Some (a - b + 2 ^ 32).
Definition div32 (a b : Z) : option Z := if b =? 0 then None else Some (a / b).
Definition rem32 (a b : Z) : option Z := if b =? 0 then None else Some (a mod b).
(** [u32::is_multiple_of]: no panic for a zero divisor *)
Definition is_multiple_of (a b : Z) : bool := if b =? 0 then a =? 0 else a mod b =? 0.
Definition bind {A B} (o : option A) (f : A -> option B) : option B :=
  match o with Some a => f a | None => None end.
Definition assert_ {A} (b : bool) (k : option A) : option A := if b then k else None.

(** The drivers with a rate to set up. *)
Inductive driver := Systick | Stm32 | SilabsTimer | NrfTimer | Letimer.

(** systick.rs 94-105: the value handed to [set_reload] (lines 106-112 switch the timer on). *)
Definition systick_start (checked : bool) (sysclk timer_hz : Z) : option Z :=
  assert_ (is_multiple_of sysclk timer_hz)
   (bind (div32 sysclk timer_hz) (fun q =>
    bind (sub32 checked q 1) (fun reload =>
    assert_ (reload <=? 0xffffff) (assert_ (0 <? reload) (Some reload))))).

(** [u16::try_from] *)
Definition try_u16 (x : Z) : option Z := if x <? 2 ^ 16 then Some x else None.

(** stm32.rs 328-332 (471-475 for TIM15): the value written to PSC. *)
Definition stm32_start (checked : bool) (tim_clock_hz timer_hz : Z) : option Z :=
  bind (rem32 tim_clock_hz timer_hz) (fun r =>
  assert_ (r =? 0)
   (bind (div32 tim_clock_hz timer_hz) (fun q =>
    bind (sub32 checked q 1) try_u16))).

(** silabs/timer.rs 331-337: the value handed to [set_presc]. *)
Definition silabs_start (checked : bool) (tim_clock_hz tick_rate_hz : Z) : option Z :=
  bind (rem32 tim_clock_hz tick_rate_hz) (fun r =>
  assert_ (r =? 0)
   (bind (div32 tim_clock_hz tick_rate_hz) (fun q =>
    bind (sub32 checked q 1) try_u16))).

(** a [match] of the rate against a table of (rate, prescaler) *)
Fixpoint lookup (hz : Z) (l : list (Z * Z)) : option Z :=
  match l with
  | [] => None
  | (r, p) :: l => if hz =? r then Some p else lookup hz l
  end.

(** nrf/timer.rs 127-139 (evaluated in a [const]: a rate outside the table does not compile). *)
Definition nrf_table : list (Z * Z) :=
  [(16000000, 0); (8000000, 1); (4000000, 2); (2000000, 3); (1000000, 4); (500000, 5); (250000, 6);
   (125000, 7); (62500, 8); (31250, 9)].

(** silabs/letimer.rs 75-85 *)
Definition letimer_table : list (Z * Z) :=
  [(32768, 0); (16384, 1); (8192, 2); (4096, 3); (2048, 4); (1024, 5); (512, 6); (256, 7)].

(** [start clock_hz] for a monotonic declared with rate [hz]: the value handed to the register accessor, or
    [None] if the program panics (nRF: does not compile).  nRF and LETIMER ignore [clk]. *)
Definition start (d : driver) (checked : bool) (clk hz : Z) : option Z :=
  match d with
  | Systick => systick_start checked clk hz
  | Stm32 => stm32_start checked clk hz
  | SilabsTimer => silabs_start checked clk hz
  | NrfTimer => lookup hz nrf_table
  | Letimer => lookup hz letimer_table
  end.

(** * Hardware: the period of the counter, in cycles of its source clock, for a value handed to the register
    accessor.  Bit fields keep only their own bits: SYST_RVR 24, PSC 16, PRESC 10 (the source: "max divisor
    1024"), nRF PRESCALER 4, CNTPRESC 4. *)
Definition tick_period (d : driver) (v : Z) : Z :=
  match d with
  | Systick => v mod 2 ^ 24 + 1
  | Stm32 => v mod 2 ^ 16 + 1
  | SilabsTimer => v mod 2 ^ 10 + 1
  | NrfTimer | Letimer => 2 ^ (v mod 2 ^ 4)
  end.

(** The frequency of the source clock: the one the user passes, or fixed by the chip (nRF PCLK16M, LFXO). *)
Definition source_hz (d : driver) (clk : Z) : Z :=
  match d with
  | Systick | Stm32 | SilabsTimer => clk
  | NrfTimer => 16000000
  | Letimer => 32768
  end.

(** The counter of a running timer of period [P], [r] source-clock cycles after it was at zero. *)
Definition counter_at (P r : Z) : Z := r / P.

(** embedded_hal_macros.rs 52-75, async [delay_ns]/[delay_us]/[delay_ms]: [unit] = 10^9, 10^6, 10^3 units per
    second; the call [Monotonic::delay(at_least x)] made at counter value [n0] computes this deadline
    (timer_queue_based_monotonic.rs 34-36, timer_queue.rs 177-186). *)
Definition hal_async_deadline (w hz unit n0 x : Z) : Z :=
  delay_deadline w (n0 mod 2 ^ w) (at_least hz unit x).
