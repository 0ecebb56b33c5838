(** C64, C65: starting a monotonic, delays in real time. *)
From Coq Require Import ZArith List Lia Bool.
From Verif Require Import TicksModel TicksProofs MonoModel MonoProofs StartModel StartProofs.
Import ListNotations.
Open Scope Z_scope.

(** * C64 A started monotonic ticks at its declared rate.
    One second is [source_hz d clk] cycles of the timer's source clock; whatever the moment [r], the counter
    then is [hz] ticks further.  [ck]: overflow checks on or off. *)
Theorem C64_ticks_at_the_declared_rate_partial :
  forall d ck clk hz v, 0 <= clk < 2 ^ 32 -> 0 <= hz < 2 ^ 32 ->
  (d = SilabsTimer -> clk <= 1024 * hz) ->
  start d ck clk hz = Some v ->
  0 < tick_period d v /\
  forall r, counter_at (tick_period d v) (r + source_hz d clk) = counter_at (tick_period d v) r + hz.
Proof.
  intros d ck clk hz v Hc Hh Hs H. destruct (start_rate d ck clk hz v Hc Hh Hs H) as (HP & E).
  split; [exact HP|]. intros r. now apply rate_ticks.
Qed.
Print Assumptions C64_ticks_at_the_declared_rate_partial.

(** The Silabs TIMER accepts divisors that its 10-bit field cannot hold: with 40 MHz and 32 kHz, start
    succeeds and the clock runs more than five times too fast; every such start is at least twice too fast. *)
Theorem C64_silabs_runs_too_fast_refuted :
  (exists v, start SilabsTimer true 40000000 32000 = Some v /\ start SilabsTimer false 40000000 32000 = Some v /\
     forall r, 5 * 32000 <= counter_at (tick_period SilabsTimer v) (r + 40000000) - counter_at (tick_period SilabsTimer v) r) /\
  (forall ck clk hz v, 0 <= clk < 2 ^ 32 -> 0 <= hz < 2 ^ 32 ->
     start SilabsTimer ck clk hz = Some v -> 1024 * hz < clk ->
     forall r, 2 * hz <= counter_at (tick_period SilabsTimer v) (r + clk) - counter_at (tick_period SilabsTimer v) r).
Proof.
  split; [|exact silabs_too_fast].
  exists 1249. split; [reflexivity|]. split; [reflexivity|]. intros r.
  change (tick_period SilabsTimer 1249) with 226. unfold counter_at.
  pose proof (Z.mul_div_le r 226 eq_refl). pose proof (Z.mul_succ_div_gt (r + 40000000) 226 eq_refl). lia.
Qed.
Print Assumptions C64_silabs_runs_too_fast_refuted.

(** Start refuses (panics; on nRF, does not compile) only rates that no value of the timer's divider
    register realises. SysTick's reload value 0 stops the timer. *)
Definition divider_values (d : driver) (v : Z) : Prop :=
  match d with
  | Systick => 1 <= v < 2 ^ 24
  | Stm32 => 0 <= v < 2 ^ 16
  | SilabsTimer => 0 <= v < 2 ^ 10
  | NrfTimer => 0 <= v <= 9
  | Letimer => 0 <= v <= 7
  end.

Theorem C64_refuses_only_unattainable_rates :
  forall d ck clk hz, 0 <= clk < 2 ^ 32 -> 0 < hz < 2 ^ 32 -> start d ck clk hz = None ->
  forall v, divider_values d v -> tick_period d v * hz <> source_hz d clk.
Proof.
  intros d ck clk hz Hc Hh H v Hv. destruct d; cbn [divider_values start tick_period source_hz] in *;
    rewrite Z.mod_small by lia.
  - refine (systick_complete ck clk hz _ H v Hv). lia.
  - refine (psc_complete ck clk hz _ H v Hv). lia.
  - refine (psc_complete ck clk hz _ H v _); lia.
  - exact (nrf_complete hz H v Hv).
  - exact (letimer_complete hz H v Hv).
Qed.
Print Assumptions C64_refuses_only_unattainable_rates.

(** A zero rate is always refused. *)
Theorem C64_zero_rate_refused :
  forall d ck clk, 0 <= clk < 2 ^ 32 -> start d ck clk 0 = None.
Proof.
  intros d ck clk Hc. destruct (start d ck clk 0) as [v|] eqn:E; [|reflexivity]. exfalso. destruct d; cbn [start] in E.
  - apply systick_inv in E as (H & _); lia.
  - apply psc_inv in E as (H & _); lia.
  - apply silabs_inv in E as (H & _); lia.
  - discriminate.
  - discriminate.
Qed.
Print Assumptions C64_zero_rate_refused.

Example C64_cases :
  start Systick true 64000000 1000 = Some 63999 /\ start Stm32 false 84000000 1000000 = Some 83 /\
  start SilabsTimer true 39000000 1000000 = Some 38 /\ start NrfTimer true 0 1000000 = Some 4 /\
  start Letimer true 0 1024 = Some 5 /\
  start Stm32 true 84000000 1000 = None /\ start Systick true 64000000 3000 = None /\
  start Stm32 false 0 1000 = None /\ start Systick false 0 1000 = None.
Proof. repeat split. Qed.

(** * C65 embedded-hal async delays in real time, on a started monotonic.
    [unit] units per second (10^9, 10^6, 10^3); the call happens at cycle [r0] of the source clock, the poll
    that returns Ready at [r1]: at least [x] units of real time have passed. *)
Theorem C65_async_delay_lasts_long_enough_partial :
  forall d ck clk hz v w unit x r0 r1,
  0 <= clk < 2 ^ 32 -> 0 <= hz < 2 ^ 32 -> (d = SilabsTimer -> clk <= 1024 * hz) -> start d ck clk hz = Some v ->
  1 <= w -> 0 < unit -> 0 <= x -> r0 <= r1 -> at_least hz unit x + 1 <= 2 ^ (w - 1) ->
  let P := tick_period d v in
  delay_ready w (counter_at P r1 mod 2 ^ w) (hal_async_deadline w hz unit (counter_at P r0) x) = true ->
  x * source_hz d clk <= (r1 - r0) * unit.
Proof.
  intros d ck clk hz v w unit x r0 r1 Hc Hh Hs H Hw Hu Hx Hr Hd P Hrdy.
  destruct (start_rate d ck clk hz v Hc Hh Hs H) as (HP & <-).
  apply (hal_async_not_early w P hz unit r0 r1 x); try assumption; lia.
Qed.
Print Assumptions C65_async_delay_lasts_long_enough_partial.

(** It is not late either: every poll made [x] units plus two ticks of real time after the call (and less
    than half the clock's range) is Ready. *)
Theorem C65_async_delay_not_late_partial :
  forall d ck clk hz v w unit x r0 r1,
  0 <= clk < 2 ^ 32 -> 0 <= hz < 2 ^ 32 -> (d = SilabsTimer -> clk <= 1024 * hz) -> start d ck clk hz = Some v ->
  1 <= w -> 0 < unit -> 0 <= x -> at_least hz unit x + 1 <= 2 ^ (w - 1) ->
  let P := tick_period d v in
  x * source_hz d clk + 2 * P * unit <= (r1 - r0) * unit ->
  counter_at P r1 - counter_at P r0 < 2 ^ (w - 1) ->
  delay_ready w (counter_at P r1 mod 2 ^ w) (hal_async_deadline w hz unit (counter_at P r0) x) = true.
Proof.
  intros d ck clk hz v w unit x r0 r1 Hc Hh Hs H Hw Hu Hx Hd P Hl Hwin.
  destruct (start_rate d ck clk hz v Hc Hh Hs H) as (HP & E). rewrite <- E in Hl.
  apply (hal_async_prompt w P hz unit r0 r1 x); try assumption; lia.
Qed.
Print Assumptions C65_async_delay_not_late_partial.

(** 250 us on a 1 MHz STM32 clock (84 MHz source): called in the middle of a tick, not ready 249 us later,
    ready 252 us later. *)
Example C65_case :
  let P := tick_period Stm32 83 in
  at_least 1000000 1000000 250 = 250 /\
  delay_ready 64 (counter_at P (42 + 249 * 84) mod 2 ^ 64) (hal_async_deadline 64 1000000 1000000 (counter_at P 42) 250) = false /\
  delay_ready 64 (counter_at P (42 + 252 * 84) mod 2 ^ 64) (hal_async_deadline 64 1000000 1000000 (counter_at P 42) 250) = true.
Proof. vm_compute. repeat split. Qed.

(** On the mis-started Silabs TIMER a delay of one second ends after less than a fifth of a second. *)
Theorem C65_silabs_delay_too_short_refuted :
  let P := tick_period SilabsTimer 1249 in
  start SilabsTimer true 40000000 32000 = Some 1249 /\
  exists r1, delay_ready 64 (counter_at P r1 mod 2 ^ 64) (hal_async_deadline 64 32000 1000 (counter_at P 0) 1000) = true /\
    r1 * 5 < source_hz SilabsTimer 40000000.
Proof. split; [reflexivity|]. exists (226 * 32001). vm_compute. repeat split. Qed.
Print Assumptions C65_silabs_delay_too_short_refuted.
