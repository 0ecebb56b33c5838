(** A monotonic before and after its [start]: rtic-time/src/timer_queue.rs 84-90 ([initialize]), 138-203
    (the constructors of [Timeout] and [Delay]), over the timer queue of TimerQueueModel.v.

    - [start] of every monotonic ends with [initialize] (systick.rs 111, stm32.rs 356, rp2040.rs 62, ...).
    - before [start] the counter stands still: its peripheral is in reset, unclocked or stopped (the SysTick counter,
      stm32.rs 322-371, nrf/rtc.rs 219-256, nrf/timer.rs 259-293, rp2040.rs 50-69).  The ESP32 system timer, which
      counts from reset, is not covered.
    - the interrupt handler may or may not be entered before [start] (SysTick's cannot be masked): the model allows
      it, which is the larger set of executions.
    - [start] itself leaves the queue and the pending interrupt as they are.  Simplified: the registers it writes. *)
From Verif Require Import Base LTS TicksModel TimerListSpec TimerQueueModel.
Open Scope Z_scope.
Set Implicit Arguments.

Record unst := mkU {
  u_q : tq;
  u_on : bool;               (* [initialized], timer_queue.rs 62 *)
  u_panics : list nat        (* futures whose construction panicked, oldest first *)
}.

Inductive ulabel :=
| UStart                          (* [start], i.e. [initialize], 84-90 *)
| UDelay (i : nat) (T : Z)        (* [delay_until(T)] and, with T = now + d + 1, [delay(d)], 177-203 *)
| UTimeout (i : nat) (T : Z)      (* [timeout_at(T, _)] and [timeout_after], 138-174 *)
| UQ (l : tlabel).                (* any other step of the queue, the handler or the clock *)

Section U.
Context (w slack : Z).

Definition u_init (c : Z) : unst := mkU (tq_init c) false [].

(** lines 191-203: [delay_until] checks [initialized]; lines 138-153: [timeout_at] does not. *)
Definition u_step (s : unst) (l : ulabel) : option unst :=
  match l with
  | UStart => Some (mkU (u_q s) true (u_panics s))
  | UDelay i T =>
      if u_on s
      then option_map (fun q => mkU q true (u_panics s)) (tq_step w slack (u_q s) (Create i T))
      else Some (mkU (u_q s) false (u_panics s ++ [i]))
  | UTimeout i T =>
      option_map (fun q => mkU q (u_on s) (u_panics s)) (tq_step w slack (u_q s) (Create i T))
  | UQ (Create _ _) => None
  | UQ Tick =>
      if u_on s then option_map (fun q => mkU q true (u_panics s)) (tq_step w slack (u_q s) Tick) else None
  | UQ l =>
      option_map (fun q => mkU q (u_on s) (u_panics s)) (tq_step w slack (u_q s) l)
  end.

Definition u_guard (s : unst) (_ : ulabel) : Prop := in_window w (u_q s).
End U.
