(** Property theorems about rtic-common: C18, C19, C20, C21. *)
From Verif Require Import Base LTS.
From Verif Require Import WaitQueueModel WaitQueueSpec WaitQueueProofs.
From Verif Require Import WaitUntilModel WaitUntilProofs WakerRegModel WakerRegProofs.
Set Implicit Arguments.

(** * C18 Wait queue refines a FIFO list.
    Every history of operations that respects the safety contract (the FIFO specification accepts it)
    runs on the pointer code without touching a dangling pointer ([wq_run] returns [Some]) and yields
    exactly the results of the FIFO list. *)
Theorem C18_wait_queue_refines_fifo :
  forall (W : Type) (ops : list (wq_op W)) (a : fifo W) (rs : list (wq_out W)),
  fifo_run fifo_new ops = Some (a, rs) ->
  exists c, wq_run wq_new ops = Some (c, rs).
Proof. exact @run_from_new. Qed.
Print Assumptions C18_wait_queue_refines_fifo.

Example C18_case :
  let ops := [ONew 1 10; ONew 2 20; ONew 3 30; OPush 1; OPush 2; OPush 3; ORemove 2; OPop; OFree 1; OPop; OPop; OIsEmpty] in
  exists a, fifo_run fifo_new ops =
    Some (a, [RUnit; RUnit; RUnit; RUnit; RUnit; RUnit; RUnit; RPop (Some 10); RUnit; RPop (Some 30); RPop None; RBool true]).
Proof. eexists. reflexivity. Qed.

(** * C19 Removing a link removes exactly that link, once. *)
Theorem C19_remove_exactly_that_link :
  forall (W : Type) (ops : list (wq_op W)) (a : fifo W) rs x,
  fifo_run fifo_new ops = Some (a, rs) -> f_st a x <> Absent ->
  exists c,
    wq_run wq_new (ops ++ [ORemove x; OIsPopped x] ++ repeat OPop (length (without x (f_q a))) ++ [OPop; OIsEmpty]) =
    Some (c, rs ++ [RUnit; RBool true] ++ map (fun p => RPop (Some (snd p))) (without x (f_q a))
                ++ [RPop None; RBool true]).
Proof. exact @remove_then_drain. Qed.
Print Assumptions C19_remove_exactly_that_link.

Theorem C19_remove_after_pop_is_noop :
  forall (W : Type) (ops : list (wq_op W)) (a : fifo W) rs x,
  fifo_run fifo_new ops = Some (a, rs) -> f_st a x = Done -> without x (f_q a) = f_q a.
Proof. exact @remove_done_noop. Qed.
Print Assumptions C19_remove_after_pop_is_noop.

Example C19_case :
  let ops := [ONew 1 10; ONew 2 20; ONew 3 30; OPush 1; OPush 2; OPush 3; OPop] in
  exists a rs, fifo_run fifo_new ops = Some (a, rs) /\ f_st a 2 = Queued /\ f_st a 1 = Done /\
    without 2 (f_q a) = [(3, 30)].
Proof. do 2 eexists. repeat split. Qed.

(** * C20 wait_until. *)
Section C20.
Context {G T : Type} (f : nat -> G -> option T) (g0 : G) (s : @wst G T).

(** A waiter whose poll returned Pending is in the queue with the waker of that poll, or has been
    popped and woken since. *)
Theorem C20_pending_is_registered :
  forall i w, reach (wstep f) (w_init g0) s -> w_pc s i = WSleep w ->
  In (i, w) (w_q s) \/ w_woken s i = true.
Proof. exact (@sleep_registered G T f g0 s). Qed.

(** Whatever is in the queue belongs to a future that is waiting: nothing of a completed or dropped
    future is left behind, and no future is in the queue twice. *)
Theorem C20_nothing_left_behind :
  forall i w, reach (wstep f) (w_init g0) s -> In (i, w) (w_q s) -> w_pc s i = WSleep w.
Proof. exact (@no_leftover G T f g0 s). Qed.

Theorem C20_no_duplicate_entry :
  reach (wstep f) (w_init g0) s -> NoDup (map fst (w_q s)).
Proof. exact (@entry_unique G T f g0 s). Qed.

(** It completes only with a value the closure returned on the state at that very moment. *)
Theorem C20_completes_only_when_true :
  forall l s' i v, wstep f s l = Some s' -> w_pc s i <> WDone v -> w_pc s' i = WDone v ->
  f i (w_g s) = Some v /\ w_g s' = w_g s.
Proof. exact (fun l s' => @done_sound G T f s l s'). Qed.

(** Partial: once the condition has its final value and the notifier has emptied the queue at a moment
    at which no waiter sits between the evaluation of its closure and the push of its link, nobody
    sleeps forever on a true condition.  Missing: the side condition cannot be dropped, see the
    refutation below. *)
Theorem C20_no_lost_wakeup_partial :
  forall ls s2 i w v,
  reach (wstep f) (w_init g0) s ->
  w_q s = [] ->
  (forall j u, w_pc s j <> WPush u) ->
  (forall g', ~ In (LSet g') ls) ->
  run (wstep f) s ls = Some s2 ->
  w_pc s2 i = WSleep w -> f i (w_g s2) = Some v -> w_woken s2 i = true.
Proof. exact (fun ls s2 i w v => @no_lost_wake G T f g0 s ls s2 i w v). Qed.
End C20.
Print Assumptions C20_pending_is_registered.
Print Assumptions C20_nothing_left_behind.
Print Assumptions C20_no_duplicate_entry.
Print Assumptions C20_completes_only_when_true.
Print Assumptions C20_no_lost_wakeup_partial.

(** The full claim "a waiter whose condition became true before the queue was popped is woken" is false:
    condition set and queue popped between lines 246 and 265 leaves the waiter asleep. *)
Theorem C20_no_lost_wakeup_refuted :
  exists s, run (wstep lost_f) (w_init false) [LPoll 0 7; LEval 0; LSet true; LPop; LPush 0] = Some s /\
    w_pc s 0 = WSleep 7 /\ lost_f 0 (w_g s) = Some tt /\ w_woken s 0 = false.
Proof. exact lost_wake. Qed.
Print Assumptions C20_no_lost_wakeup_refuted.

Example C20_case_sleep :
  exists s, run (wstep lost_f) (w_init false) [LPoll 0 7; LEval 0; LPush 0; LPoll 1 8; LEval 1; LPush 1] = Some s /\
    w_pc s 0 = WSleep 7 /\ w_q s = [(0, 7); (1, 8)].
Proof. eexists. repeat split. Qed.
Example C20_case_partial :
  exists s s2, run (wstep lost_f) (w_init false) [LPoll 0 7; LEval 0; LPush 0; LSet true; LPop] = Some s /\
    w_q s = [] /\ run (wstep lost_f) s [LPoll 1 9] = Some s2 /\ w_pc s2 0 = WSleep 7 /\
    lost_f 0 (w_g s2) = Some tt /\ w_woken s2 0 = true.
Proof. do 2 eexists. repeat split. Qed.

(** * C21 Waker registration. *)
Theorem C21_no_registered_waker_is_lost :
  forall pre w post,
  let (r1, k1) := wreg_run wreg_new (pre ++ [WRegister w]) in
  let (r2, k2) := wreg_run r1 post in
  r2 = Some w \/ In w k2.
Proof. exact none_lost. Qed.
Print Assumptions C21_no_registered_waker_is_lost.

Theorem C21_wake_wakes_the_newest :
  forall pre w, snd (wreg_wake (fst (wreg_run wreg_new (pre ++ [WRegister w])))) = [w].
Proof. exact wake_newest_gen. Qed.
Print Assumptions C21_wake_wakes_the_newest.

Theorem C21_only_registered_wakers_are_woken :
  forall ops w, In w (snd (wreg_run wreg_new ops)) -> In (WRegister w) ops.
Proof. exact no_spurious. Qed.
Print Assumptions C21_only_registered_wakers_are_woken.

Theorem C21_each_registration_woken_at_most_once :
  forall w ops, wakes_of w (snd (wreg_run wreg_new ops)) <= regs_of w ops.
Proof. exact woken_at_most_once_per_registration. Qed.
Print Assumptions C21_each_registration_woken_at_most_once.

Example C21_case :
  wreg_run wreg_new [WRegister 1; WRegister 2; WRegister 2; WWake; WWake; WRegister 3] = (Some 3, [1; 2]).
Proof. reflexivity. Qed.
