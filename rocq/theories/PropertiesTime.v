(** Property theorems about rtic-time: C36, C37, C38, C39, C40, C41. *)
From Verif Require Import Base LTS.
From Verif Require Import TicksModel TicksProofs TimerListModel TimerListSpec TimerListProofs.
From Verif Require Import TimerQueueModel TimerQueueProofs.
Open Scope Z_scope.
Set Implicit Arguments.

(** * C36 Wrapping tick comparison agrees with chronological order in a half-range window.
    [A], [B] are true (unbounded) tick counts; the code sees them modulo [2^w]. *)
Theorem C36_compare_is_chronological :
  forall w A B, 1 <= w -> - 2 ^ (w - 1) <= A - B < 2 ^ (w - 1) ->
  compare w (A mod 2 ^ w) (B mod 2 ^ w) = (A ?= B).
Proof. exact compare_window. Qed.
Print Assumptions C36_compare_is_chronological.

Theorem C36_is_at_least_is_chronological :
  forall w A B, 1 <= w -> - 2 ^ (w - 1) <= A - B < 2 ^ (w - 1) ->
  is_at_least w (A mod 2 ^ w) (B mod 2 ^ w) = (B <=? A).
Proof. exact is_at_least_window. Qed.
Print Assumptions C36_is_at_least_is_chronological.

(** Beyond half the range the answer is the opposite: the window is exact. *)
Theorem C36_window_is_exact :
  forall w A B, 1 <= w -> 2 ^ (w - 1) <= A - B < 2 ^ w ->
  compare w (A mod 2 ^ w) (B mod 2 ^ w) = Lt /\ (A ?= B) = Gt.
Proof. exact window_exact. Qed.
Print Assumptions C36_window_is_exact.

Example C36_case : compare 32 ((2 ^ 32 + 5) mod 2 ^ 32) ((2 ^ 32 - 5) mod 2 ^ 32) = Gt.
Proof. reflexivity. Qed.

(** * C37 A delay never completes early.  The clock hardware shows [r / P] at real time [r], [P] real-time
    units per tick; the call is made at [r0], the successful poll at [r1]. *)
Theorem C37_delay_lasts_at_least_d :
  forall w P r0 r1 d, 1 <= w -> 0 < P -> r0 <= r1 -> 0 <= d -> d + 1 <= 2 ^ (w - 1) ->
  delay_ready w ((r1 / P) mod 2 ^ w) (delay_deadline w ((r0 / P) mod 2 ^ w) d) = true ->
  d * P <= r1 - r0.
Proof. exact delay_not_early. Qed.
Print Assumptions C37_delay_lasts_at_least_d.

Theorem C37_delay_until_not_early :
  forall w n1 T, 1 <= w -> - 2 ^ (w - 1) <= n1 - T < 2 ^ (w - 1) ->
  delay_ready w (n1 mod 2 ^ w) (T mod 2 ^ w) = true -> T <= n1.
Proof. exact delay_until_not_early. Qed.
Print Assumptions C37_delay_until_not_early.

(** and it is not late either: ready at every poll from d+1 ticks on (at once for d = 0). *)
Theorem C37_delay_ready_after_d_plus_one_ticks :
  forall w n0 n1 d, 1 <= w -> 0 <= d -> d + 1 <= 2 ^ (w - 1) ->
  (if d =? 0 then 0 else d + 1) <= n1 - n0 < 2 ^ (w - 1) ->
  delay_ready w (n1 mod 2 ^ w) (delay_deadline w (n0 mod 2 ^ w) d) = true.
Proof. exact delay_prompt. Qed.
Print Assumptions C37_delay_ready_after_d_plus_one_ticks.

(** The bound on [d] is needed: for every width a delay of more than half the range is ready at once. *)
Theorem C37_delay_beyond_half_range_refuted :
  forall w n0 d, 1 <= w -> 2 ^ (w - 1) <= d -> d + 1 < 2 ^ w ->
  delay_ready w (n0 mod 2 ^ w) (delay_deadline w (n0 mod 2 ^ w) d) = true.
Proof. exact delay_beyond_half_immediate. Qed.
Print Assumptions C37_delay_beyond_half_range_refuted.

Example C37_case :
  delay_ready 32 ((430000 / 100) mod 2 ^ 32) (delay_deadline 32 ((429450 / 100) mod 2 ^ 32) 5) = true /\
  delay_ready 32 ((429999 / 100) mod 2 ^ 32) (delay_deadline 32 ((429450 / 100) mod 2 ^ 32) 5) = false.
Proof. split; reflexivity. Qed.
Example C37_refuted_case : delay_ready 32 7 (delay_deadline 32 7 (2 ^ 31)) = true.
Proof. reflexivity. Qed.

(** * C38 The timer list. [lt] is the order of the values ([WaitingWaker]). *)
Theorem C38_timer_list_refines_sorted_list :
  forall (V : Type) (lt : V -> V -> bool) ops a rs fuel,
  slist_run lt slist_new ops = Some (a, rs) -> (length ops <= fuel)%nat ->
  exists c, tl_run lt fuel tl_new ops = Some (c, rs).
Proof. exact @run_from_new. Qed.
Print Assumptions C38_timer_list_refines_sorted_list.

(** The list specification is ordered whenever [lt] is a strict weak order on the values used. *)
Theorem C38_always_ordered :
  forall (V : Type) (lt : V -> V -> bool) (P : V -> Prop) ops a rs,
  weak_order_on lt P -> (forall x v, In (TNew x v) ops -> P v) ->
  slist_run lt slist_new ops = Some (a, rs) -> ordered lt (s_q a).
Proof. exact @run_ordered_from_new. Qed.
Print Assumptions C38_always_ordered.

(** Insertion puts the new entry after everything not later than it and before everything later:
    stable, nothing lost, nothing reordered. *)
Theorem C38_insert_is_stable :
  forall (V : Type) (lt : V -> V -> bool) (P : V -> Prop) a v q,
  weak_order_on lt P -> P v -> Forall (fun p => P (snd p)) q -> ordered lt q ->
  exists q1 q2, q = q1 ++ q2 /\ ins lt a v q = q1 ++ (a, v) :: q2 /\
    Forall (fun p => lt v (snd p) = false) q1 /\ Forall (fun p => lt v (snd p) = true) q2.
Proof. exact @ins_split. Qed.
Print Assumptions C38_insert_is_stable.

(** Deadlines inside one half-range window are such an order. *)
Theorem C38_ticks_are_ordered :
  forall w lo, 1 <= w ->
  weak_order_on (fun a b => tick_lt w (a mod 2 ^ w) (b mod 2 ^ w)) (fun T => lo <= T < lo + 2 ^ (w - 1)).
Proof. exact ticks_weak_order. Qed.
Print Assumptions C38_ticks_are_ordered.

Example C38_case :
  let lt := Nat.ltb in
  exists a, slist_run lt slist_new
    [TNew 1 50%nat; TNew 2 20%nat; TNew 3 50%nat; TInsert 1; TInsert 2; TInsert 3; TDelete 2; TPopIf (fun v => Nat.leb v 50); TPopIf (fun v => Nat.leb v 50)] =
   Some (a, [TUnit; TUnit; TUnit; THead true; THead true; THead false; TUnit; TPopped (Some 50%nat); TPopped (Some 50%nat)]).
Proof. eexists. reflexivity. Qed.

(** * C39 No deadline is missed.  [safe_reach]: reachable by any schedule of tasks, handler and clock during
    which all live deadlines and the clock lie in one half-range window. *)
Section TQ.
Context (w slack : Z) (Hw : 1 <= w) (Hslack : 0 <= slack).

(** When a deadline (plus the backend's minimum distance) has passed and the handler is not running, the
    handler is about to run: the interrupt is pended, requested by the compare unit, or the task that
    inserted the entry is just about to pend it. *)
Theorem C39_no_missed_deadline :
  forall c0 s i T, safe_reach w slack c0 s -> handler s = HIdle -> In (i, T) (queue s) -> T + slack <= clock s ->
  irq_sw s = true \/ irq_cmp s = true \/ exists j, f_pc (futs s j) = DPend.
Proof. exact (no_missed_deadline Hw). Qed.

(** While entries remain, an interrupt is pending or the compare unit is armed no later than needed. *)
Theorem C39_always_armed :
  forall c0 s i T, safe_reach w slack c0 s -> handler s = HIdle -> In (i, T) (queue s) ->
  irq_sw s = true \/ irq_cmp s = true \/ (exists j, f_pc (futs s j) = DPend) \/
  (enabled s = true /\ exists c, armed s = Some c /\ clock s < c <= T + slack).
Proof. exact (always_armed Hw). Qed.

(** The handler, run to completion, wakes every entry that is due with its own waker and leaves only
    future deadlines. *)
Theorem C39_handler_serves_all :
  forall c0 n s, length (queue s) = n ->
  safe_reach w slack c0 s -> in_window w s -> handler s = HLoop ->
  exists ls s', run (tq_step w slack) s ls = Some s' /\ Forall is_handler ls /\ handler s' = HIdle /\
    clock s' = clock s /\
    (forall i T, In (i, T) (queue s') -> clock s < T) /\
    (forall i T, In (i, T) (queue s) -> T <= clock s -> In (i, f_waker (futs s i), clock s) (log s')).
Proof. exact (handler_serves Hw Hslack). Qed.

(** When the handler returns after arming, nothing in the queue is due (or another interrupt is coming). *)
Theorem C39_return_means_served :
  forall c0 s s', safe_reach w slack c0 s -> in_window w s -> tq_step w slack s HCheckL = Some s' -> handler s' = HIdle ->
  (forall i T, In (i, T) (queue s') -> clock s' < T) \/
  irq_sw s' = true \/ exists j, f_pc (futs s' j) = DPend.
Proof. exact (return_all_served Hw). Qed.

(** Entries are popped in deadline order, only when due, and woken with their own waker. *)
Theorem C39_earliest_first :
  forall c0 s s' i wk, safe_reach w slack c0 s -> in_window w s -> tq_step w slack s HPop = Some s' -> handler s' = HWake i wk ->
  exists T, In (i, T) (queue s) /\ T <= clock s /\ wk = f_waker (futs s i) /\
    queue s = (i, T) :: queue s' /\ (forall j U, In (j, U) (queue s) -> T <= U).
Proof. exact (pop_earliest Hw). Qed.

(** Each entry is woken at most once and never before its deadline; a popped entry is woken. *)
Theorem C39_woken_once_not_early :
  forall c0 s, safe_reach w slack c0 s ->
  NoDup (map (fun e => fst (fst e)) (log s)) /\
  (forall i wk t, In (i, wk, t) (log s) -> f_T (futs s i) <= t).
Proof. exact (woken_once_not_early Hw). Qed.

Theorem C39_popped_is_woken :
  forall c0 s i, safe_reach w slack c0 s -> f_popped (futs s i) = true ->
  In i (map (fun e => fst (fst e)) (log s)) \/ exists wk, handler s = HWake i wk.
Proof. exact (popped_woken Hw). Qed.

(** A future that returned Pending is in the queue, or its next poll returns Ready. *)
Theorem C39_pending_is_queued_or_ready :
  forall c0 s i wk, safe_reach w slack c0 s -> in_window w s -> f_pc (futs s i) = DPending ->
  In (i, f_T (futs s i)) (queue s) \/
  (exists s', tq_step w slack s (Poll i wk) = Some s' /\ f_pc (futs s' i) = DReady).
Proof. exact (pending_queued_or_ready Hw). Qed.

(** A future becomes Ready only at or after its deadline (C37 inside the full system). *)
Theorem C37_ready_not_early_in_system :
  forall c0 s l s' i, safe_reach w slack c0 s -> in_window w s -> tq_step w slack s l = Some s' ->
  f_pc (futs s i) <> DReady -> f_pc (futs s' i) = DReady -> f_T (futs s i) <= clock s.
Proof. exact (ready_not_early Hw). Qed.

(** * C40 After a drop, nothing of the future is in the queue. *)
Theorem C40_dropped_not_queued :
  forall c0 s i T, safe_reach w slack c0 s -> f_pc (futs s i) = DDropped -> ~ In (i, T) (queue s).
Proof. exact (dropped_not_queued Hw). Qed.

(** and the steps of a drop leave every other entry and future alone. *)
Theorem C40_drop_leaves_others :
  forall s s' i, (tq_step w slack s (Drop i) = Some s' \/ tq_step w slack s (Delete i) = Some s') ->
  (forall j T, j <> i -> In (j, T) (queue s') <-> In (j, T) (queue s)) /\
  (exists keep, queue s' = filter keep (queue s)) /\
  (forall j, j <> i -> futs s' j = futs s j).
Proof. exact (drop_leaves_others w slack). Qed.
End TQ.
Print Assumptions C39_no_missed_deadline.
Print Assumptions C39_always_armed.
Print Assumptions C39_handler_serves_all.
Print Assumptions C39_return_means_served.
Print Assumptions C39_earliest_first.
Print Assumptions C39_woken_once_not_early.
Print Assumptions C39_popped_is_woken.
Print Assumptions C39_pending_is_queued_or_ready.
Print Assumptions C37_ready_not_early_in_system.
Print Assumptions C40_dropped_not_queued.
Print Assumptions C40_drop_leaves_others.

(** A reachable, in-window state with the handler about to pop: deadlines 11 and 12 queued at clock 11. *)
Example C39_case : exists s, safe_reach 32 0 10 s /\ in_window 32 s /\
  handler s = HLoop /\ queue s = [(1%nat, 11); (0%nat, 12)] /\ clock s = 11 /\
  exists s', tq_step 32 0 s HPop = Some s' /\ handler s' = HWake 1 6.
Proof. exact demo_reach. Qed.

(** * C41 timeout. *)
Theorem C41_ok_iff_future_ready :
  forall (A : Type) w (fr : option A) v now dl, timeout_poll w fr now dl = TOk v <-> fr = Some v.
Proof. exact @timeout_ok_iff. Qed.
Print Assumptions C41_ok_iff_future_ready.

Theorem C41_error_iff_deadline_passed :
  forall (A : Type) w (fr : option A) n1 T, 1 <= w -> - 2 ^ (w - 1) <= n1 - T < 2 ^ (w - 1) ->
  timeout_poll w fr (n1 mod 2 ^ w) (T mod 2 ^ w) = TErr <-> fr = None /\ T <= n1.
Proof. exact @timeout_err. Qed.
Print Assumptions C41_error_iff_deadline_passed.

(** [timeout_after(d)]: the error comes only if at least [d] real-time ticks passed. *)
Theorem C41_timeout_after_not_early :
  forall (A : Type) w P r0 r1 d (fr : option A),
  1 <= w -> 0 < P -> r0 <= r1 -> 0 <= d -> d + 1 <= 2 ^ (w - 1) ->
  timeout_poll w fr ((r1 / P) mod 2 ^ w) (delay_deadline w ((r0 / P) mod 2 ^ w) d) = TErr ->
  fr = None /\ d * P <= r1 - r0.
Proof. exact @timeout_after_not_early. Qed.
Print Assumptions C41_timeout_after_not_early.

Example C41_case : timeout_poll 32 (@None nat) 10 10 = TErr /\ timeout_poll 32 (Some 3%nat) 10 10 = TOk 3%nat /\
  timeout_poll 32 (@None nat) 9 10 = TPending.
Proof. repeat split. Qed.

(** * C49 (Delay) The newest waker is not honoured: polled with waker 5 and again with waker 6, the expiry
    wakes waker 5. *)
Theorem C49_delay_newest_waker_refuted :
  exists s, run (tq_step 32 0) (tq_init 10)
    [Create 0 11; Poll 0 5; Insert 0; Pend 0; Poll 0 6; Tick; IrqEnter; HClearL; HPop; HWakeL] = Some s /\
    log s = [(0%nat, 5%nat, 11)].
Proof. exact stale_waker. Qed.
Print Assumptions C49_delay_newest_waker_refuted.

(** * C55 A timer interrupt that finds nothing queued turns the timer off, and until a delay is queued again the
    compare unit requests no further interrupt: after any schedule without insertions, whenever the handler is not
    running, the timer is disabled and the passing of time requests nothing. *)
Theorem C55_quiet_when_empty :
  forall w slack s ls s',
  handler s = HClear -> queue s = [] -> Forall no_insert ls -> run (tq_step w slack) s ls = Some s' -> handler s' = HIdle ->
  enabled s' = false /\ forall s'', tq_step w slack s' Tick = Some s'' -> irq_cmp s'' = irq_cmp s'.
Proof. exact off_when_empty. Qed.
Print Assumptions C55_quiet_when_empty.

(** The delay is dropped while the timer is enabled for it; the compare interrupt finds the queue empty. *)
Example C55_case : exists s s', run (tq_step 32 0) (tq_init 10)
    [Create 0 12; Poll 0 5; Insert 0; Pend 0; IrqEnter; HClearL; HPop; HEnableL; HSetL (Some 12); HCheckL; Drop 0; Delete 0; Tick; Tick; IrqEnter] = Some s /\
  handler s = HClear /\ queue s = [] /\ enabled s = true /\
  run (tq_step 32 0) s [HClearL; Tick; HPop; HDisableL; Tick] = Some s' /\ handler s' = HIdle.
Proof.
  match goal with |- exists s s', run _ _ ?l = _ /\ _ => destruct (run (tq_step 32 0) (tq_init 10) l) as [s|] eqn:E; [|vm_compute in E; discriminate] end.
  vm_compute in E. injection E as <-.
  eexists. eexists. split; [reflexivity|]. split; [reflexivity|]. split; [reflexivity|]. split; [reflexivity|]. split; [vm_compute; reflexivity|reflexivity].
Qed.
