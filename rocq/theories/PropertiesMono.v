(** Property theorems about time keeping in rtic-time and rtic-monotonics: C42-C47, C50, C51. *)
From Verif Require Import Base LTS TicksModel MonoModel MonoProofs TimerQueueModel.
From Coq Require Import Sorting.Sorted.
Open Scope Z_scope.
Set Implicit Arguments.

(** * C42 Half-period counting yields the true time.  [t]: true tick count when the timer register is
    read; [hp]: the half-period counter, current or lagging by one half period. *)
Theorem C42_calculate_now_is_true_time :
  forall W B hp t, 1 <= B -> 0 <= hp -> 0 <= t < 2 ^ W ->
  hp <= t / 2 ^ (B - 1) <= hp + 1 ->
  calculate_now W B hp (t mod 2 ^ B) = Some t.
Proof. exact calculate_now_true. Qed.
Print Assumptions C42_calculate_now_is_true_time.

(** The lag bound is exact: with two missed half periods time jumps back by a whole period. *)
Theorem C42_two_missed_half_periods :
  forall W B hp t, 1 <= B -> 0 <= hp -> 0 <= t < 2 ^ W -> t / 2 ^ (B - 1) = hp + 2 ->
  calculate_now W B hp (t mod 2 ^ B) = Some (t - 2 ^ B).
Proof. exact calculate_now_lag2. Qed.
Print Assumptions C42_two_missed_half_periods.

Example C42_case :
  calculate_now 64 16 1 (65540 mod 2 ^ 16) = Some 65540 /\ calculate_now 64 16 2 (65540 mod 2 ^ 16) = Some 65540 /\
  calculate_now 64 16 1 (65535 mod 2 ^ 16) = Some 65535.
Proof. repeat split. Qed.

(** * C43 Half-period interrupts stay in step, for each of the three handler shapes of the backends:
    the parity assertions never fire, and the counter lags by at most one half period; so [now] is
    always the true time. *)
Theorem C43_half_periods_stay_in_step :
  forall B k, 1 <= B -> forall t0 s, 0 <= t0 < 2 ^ (B - 1) ->
  greach (hps_step B k) (latency_ok B) (hps_init t0) s ->
  h_panic s = false /\ h_hp s <= h_t s / 2 ^ (B - 1) <= h_hp s + 1.
Proof. exact half_period_in_step. Qed.
Print Assumptions C43_half_periods_stay_in_step.

Theorem C43_now_is_always_true_time :
  forall B k, 1 <= B -> forall W t0 s, 0 <= t0 < 2 ^ (B - 1) ->
  greach (hps_step B k) (latency_ok B) (hps_init t0) s -> h_t s < 2 ^ W ->
  calculate_now W B (h_hp s) (h_t s mod 2 ^ B) = Some (h_t s).
Proof. exact now_always_true. Qed.
Print Assumptions C43_now_is_always_true_time.

(** A run of a 2-bit timer (half period 2) through three boundaries, two of them served late. *)
Example C43_case :
  let ls := [HTick; HTick; HTick; HEnter; HStep; HStep; HStep; HTick; HEnter; HTick; HStep; HStep; HStep; HTick] in
  exists s, run (hps_step 2 FullFirst) (hps_init 0) ls = Some s /\
    guarded (hps_step 2 FullFirst) (latency_ok 2) (hps_init 0) ls /\ h_t s = 6 /\ h_hp s = 2 /\ h_half s = true.
Proof.
  eexists. split; [vm_compute; reflexivity|]. split; [|vm_compute; repeat split].
  vm_compute. repeat split; intros; discriminate.
Qed.

(** * C44 The compare value cannot miss the instant.  [now]: clock read by set_compare; [now']: clock when
    the compare register is written; [next_match]: first time after [now'] at which the counter shows the
    value written; the interrupt comes after [now'] and no later than [T] plus the time [set_compare] took. *)
Lemma arm_ok_spec slack now' T c : arm_ok slack now' T (Some c) = true -> now' < T -> now' < c <= T + slack.
Proof. unfold arm_ok. intros H L. destruct (now' <? T) eqn:E; [|lia]. lia. Qed.
Theorem C44_compare_near :
  forall W B T now now', 0 <= B <= W -> now <= now' -> T - now < 2 ^ W -> now' < T ->
  now' < next_match B (compare_near W B (T mod 2 ^ W) (now mod 2 ^ W)) now' <= T + (now' - now).
Proof. intros W B T now now' H1 H2 H3. apply arm_ok_spec. now apply compare_near_arms. Qed.
Print Assumptions C44_compare_near.

Theorem C44_compare_truncated :
  forall W B T now', 0 <= B <= W -> now' < T ->
  now' < next_match B (compare_trunc B (T mod 2 ^ W)) now' <= T.
Proof. intros W B T now' H1 H2. rewrite <- (Z.add_0_r T) at 3. apply arm_ok_spec; auto. now apply compare_trunc_arms. Qed.
Print Assumptions C44_compare_truncated.

(** nRF RTC: never closer than three ticks (hardware erratum), hence at most two ticks late. *)
Theorem C44_compare_rtc :
  forall W B T now, 2 <= B <= W -> T - now < 2 ^ W ->
  let c := next_match B (compare_rtc W B (T mod 2 ^ W) (now mod 2 ^ W)) now in
  now < T -> now < c <= T + 2 /\ (T - now < 2 ^ B -> now + 3 <= c).
Proof.
  intros W B T now H1 H2 c H3. destruct (@compare_rtc_arms W B T now H1 H2) as [A1 A2]. split; [exact (@arm_ok_spec _ _ _ _ A1 H3)|auto].
Qed.
Print Assumptions C44_compare_rtc.

(** Silicon Labs LETIMER (down counter); [rnow] is the time [now()] reported, see C51. *)
Theorem C44_compare_letimer :
  forall T now rnow now', 0 <= rnow -> now <= rnow <= now + 1 -> now <= now' -> now' < T ->
  now' < letimer_match (letimer_compare T rnow) now' <= T + (now' - now).
Proof. intros T now rnow now' H1 H2 H3. apply arm_ok_spec. now apply letimer_compare_arms. Qed.
Print Assumptions C44_compare_letimer.

(** What [next_match] means: the first time after [t] at which a [B]-bit counter shows [v]. *)
Theorem C44_next_match_shows_value :
  forall B v t, 0 <= B -> 0 <= v < 2 ^ B -> next_match B v t mod 2 ^ B = v.
Proof. exact next_match_shows. Qed.
Theorem C44_next_match_is_first :
  forall B v t u, 0 <= B -> t < u -> u mod 2 ^ B = v -> next_match B v t <= u.
Proof. exact next_match_first. Qed.
Theorem C44_next_match_bounds : forall B v t, 0 <= B -> t < next_match B v t <= t + 2 ^ B.
Proof. exact next_match_bounds. Qed.
Print Assumptions C44_next_match_shows_value.
Print Assumptions C44_next_match_is_first.
Print Assumptions C44_next_match_bounds.

Example C44_case : next_match 16 (compare_near 64 16 70000 65000) 65001 = 70000 /\
  next_match 16 (compare_near 64 16 200000 65000) 65001 = 65536 /\
  next_match 24 (compare_rtc 64 24 1001 1000) 1000 = 1003.
Proof. vm_compute. repeat split. Qed.

(** * C45 64-bit reads from two halves.  [time k] is the timer at the k-th register read of the call. *)
Theorem C45_rp_now_was_the_time :
  forall fuel time r, (forall i j, (i <= j)%nat -> time i <= time j) -> (forall i, 0 <= time i < 2 ^ 64) ->
  rp_now fuel time = Some r -> exists j, (1 <= j <= 2 * fuel)%nat /\ r = time j.
Proof. exact rp_now_true. Qed.
Print Assumptions C45_rp_now_was_the_time.

Theorem C45_rp_now_terminates :
  forall time, (forall i j, (i <= j)%nat -> time i <= time j) -> (forall i, 0 <= time i < 2 ^ 64) ->
  time 4%nat - time 0%nat < 2 ^ 32 -> exists r, rp_now 2 time = Some r.
Proof. exact rp_now_terminates. Qed.
Print Assumptions C45_rp_now_terminates.

Example C45_case : rp_now 2 (fun k => 2 ^ 32 - 2 + Z.of_nat k) = Some (2 ^ 32 + 1).
Proof. vm_compute. reflexivity. Qed.

(** * C46 SysTick. *)
Theorem C46_systick_never_goes_back :
  forall w, 0 <= w -> forall s, greach (sys_step w) sys_guard sys_init s ->
  exists ms, map fst (s_ret s) = map (fun x => x mod 2 ^ w) ms /\
    Forall2 (fun x r => x <= snd r) ms (s_ret s) /\ StronglySorted Z.le ms.
Proof. exact systick_monotone. Qed.
Print Assumptions C46_systick_never_goes_back.

Theorem C46_systick_counts_each_wrap_once :
  forall w, 0 <= w -> forall s, greach (sys_step w) sys_guard sys_init s ->
  s_cnt s = (s_wraps s - Z.of_nat (length (s_adds s)) - (if s_flag s then 1 else 0)) mod 2 ^ w /\
  NoDup (s_adds s) /\ (forall c, In c (s_adds s) <-> exists b, s_pc s c = SAdd b).
Proof. exact systick_no_tick_lost. Qed.
Print Assumptions C46_systick_counts_each_wrap_once.

Theorem C46_systick_exact_when_undisturbed :
  forall w, 0 <= w -> forall s, greach (sys_step w) sys_guard sys_init s ->
  (forall c b, s_pc s c <> SAdd b) -> s_flag s = false -> s_cnt s = s_wraps s mod 2 ^ w.
Proof. exact systick_exact. Qed.
Print Assumptions C46_systick_exact_when_undisturbed.

(** A task's now() is preempted between clearing the flag and counting; the next wrap is counted first. *)
Example C46_case :
  let ls := [SWrap; SBegin 0 true; SWrap; SBegin 1 false; SAddL 1; SBegin 2 true; SLoadL 2; SAddL 0; SLoadL 0] in
  exists s, run (sys_step 32) sys_init ls = Some s /\ guarded (sys_step 32) sys_guard sys_init ls /\
    s_ret s = [(1, 2); (2, 2)].
Proof. eexists. split; [vm_compute; reflexivity|]. vm_compute. repeat split. Qed.

(** * C47 Blocking delays.  The counter runs at num/den ticks per request unit; [real k] is the real time
    (in units) of the k-th clock read of the spin loop. *)
Theorem C47_blocking_delay_long_enough :
  forall w num den x r0 real fuel j,
  1 <= w -> 0 < num -> 0 < den -> 0 <= x -> at_least num den x + 1 <= 2 ^ (w - 1) ->
  (forall k, r0 <= real k) ->
  let cnt r := r * num / den in
  hal_spin fuel w (hal_done w (cnt r0 mod 2 ^ w) (at_least num den x)) (fun k => cnt (real k)) 0 = Some j ->
  x <= real j - r0.
Proof. exact hal_delay_long_enough. Qed.
Print Assumptions C47_blocking_delay_long_enough.

(** delay of 100 ns on a 32768 Hz clock started just before a tick: ends in the second tick after it. *)
Example C47_case :
  let cnt r := r * 32768 / 1000000000 in
  hal_spin 10 32 (hal_done 32 (cnt 30517 mod 2 ^ 32) (at_least 32768 1000000000 100))
    (fun k => cnt (30517 + 15000 * Z.of_nat k)) 0 = Some 3%nat.
Proof. vm_compute. reflexivity. Qed.

(** * C50 ESP32-C3/C6 time reads. [e_begin s c]: the true time at which context [c]'s call latched the timer. *)
Theorem C50_esp_now_true_partial :
  forall t0 s c v, 0 <= t0 ->
  greach esp_step esp_alone (esp_init t0) s -> e_pc s c = EDone v -> e_begin s c < 2 ^ 64 ->
  v = e_begin s c /\ 0 <= v <= e_t s.
Proof. exact esp_now_true. Qed.
Print Assumptions C50_esp_now_true_partial.

(** Without the "alone" condition a preempting [now()] tears the read: the value returned is 2^32 - 1
    ticks ahead of the true time. *)
Theorem C50_esp_now_torn_refuted :
  exists s v, run esp_step (esp_init (2 ^ 32 - 1))
      [EUpdate 0; EReadLo 0; ETick 1; EUpdate 1; EReadLo 1; EReadHi 1; EReadHi 0] = Some s /\
    e_pc s 0%nat = EDone v /\ v = e_t s + (2 ^ 32 - 1).
Proof. exact esp_torn. Qed.
Print Assumptions C50_esp_now_torn_refuted.

Example C50_case :
  let ls := [EUpdate 0; ETick 5; EReadLo 0; ETick 1; EReadHi 0] in
  exists s, run esp_step (esp_init (2 ^ 32 - 1)) ls = Some s /\
    guarded esp_step esp_alone (esp_init (2 ^ 32 - 1)) ls /\ e_pc s 0%nat = EDone (2 ^ 32 - 1).
Proof. eexists. split; [vm_compute; reflexivity|]. vm_compute. repeat split; intros; discriminate. Qed.

(** * C51 LETIMER time. *)
Theorem C51_letimer_now_within_one_tick :
  forall hp t, 0 <= t < 2 ^ 63 -> hp = t / 2 ^ 23 ->
  letimer_now hp t = Some (if t mod 2 ^ 24 =? 2 ^ 24 - 1 then t + 1 else t).
Proof. exact letimer_now_current. Qed.
Theorem C51_letimer_now_before_interrupt :
  forall hp t, 0 <= hp -> 0 <= t < 2 ^ 63 -> hp + 1 = t / 2 ^ 23 -> t mod 2 ^ 24 <> 2 ^ 24 - 1 ->
  letimer_now hp t = Some t.
Proof. exact letimer_now_lagging. Qed.
Theorem C51_letimer_monotone :
  forall t1 t2 r1 r2, 0 <= t1 <= t2 -> t2 < 2 ^ 63 ->
  letimer_now (t1 / 2 ^ 23) t1 = Some r1 -> letimer_now (t2 / 2 ^ 23) t2 = Some r2 -> r1 <= r2.
Proof. exact letimer_monotone. Qed.
Print Assumptions C51_letimer_now_within_one_tick.
Print Assumptions C51_letimer_now_before_interrupt.
Print Assumptions C51_letimer_monotone.

(** The full claim "delays on the LETIMER never end early" is false: a delay ending on the last tick of a
    24-bit period ends up to one tick early. *)
Theorem C51_letimer_delay_never_early_refuted :
  exists P r0 r1 d n0 n1, 0 < P /\ r0 <= r1 /\ 0 <= d /\
    letimer_now ((r0 / P) / 2 ^ 23) (r0 / P) = Some n0 /\
    letimer_now ((r1 / P) / 2 ^ 23) (r1 / P) = Some n1 /\
    delay_ready 64 n1 (delay_deadline 64 n0 d) = true /\ r1 - r0 < d * P.
Proof. exact letimer_delay_early. Qed.
Print Assumptions C51_letimer_delay_never_early_refuted.

Example C51_case : letimer_now 1 (2 ^ 24 - 2) = Some (2 ^ 24 - 2) /\ letimer_now 1 (2 ^ 24 - 1) = Some (2 ^ 24) /\
  letimer_now 1 (2 ^ 24) = Some (2 ^ 24).
Proof. vm_compute. repeat split. Qed.
