(** Property theorems about rtic-sync's channel: C22-C30 (and C49 for send).
    Vocabulary: ChannelSpec.v.  [creach N s]: [s] is reached from a new channel with [N] slots by some
    schedule of any number of sender handles and the receiver, one critical section at a time. *)
From Verif Require Import Base LTS WakerRegModel ChannelModel ChannelSpec ChannelOwn ChannelProofs ChannelTrace ChannelMore ChannelFinal.
From Coq Require Import Permutation.
Set Implicit Arguments.

Section Chan.
Context {V : Type} (N : nat).
Implicit Types (s : chan V) (j k x w : nat) (v : V).

(** * C22 What is received is a prefix of what was committed, in order. *)
Theorem C22_received_is_prefix_of_committed :
  forall s, creach N s -> exists rest, map snd (commits (log s)) = recvs (log s) ++ rest.
Proof. intros s H. exact (T_pre (X_T (InvX_reach H))). Qed.

(** While the receiver lives and is not in the middle of reading a slot, what is committed and not yet
    received is exactly the content of the ready queue, in order: nothing is lost, duplicated or invented. *)
Theorem C22_rest_is_buffered :
  forall s, creach N s -> rdropped s = false -> rheld (recv s) = None ->
  map Some (map snd (commits (log s))) = map Some (recvs (log s)) ++ map (slots s) (readyq s).
Proof. exact (@undropped_contents V N). Qed.

(** Each operation of each sender commits its value exactly once and then reports Ok, or never commits it
    and reports Full / NoReceiver with that value, or is cancelled; an unfinished one has started and maybe
    committed. *)
Theorem C22_every_operation_has_one_outcome :
  forall s j, creach N s ->
  exists done tail, ops j done /\ filter (about j) (log s) = done ++ tail /\
    (tail = [] \/ exists v, tail = [EStart j v] \/ tail = [EStart j v; ECommit j v]) /\
    (h_pc (hs s j) = HIdle -> tail = []).
Proof. intros s j. exact (@handle_history V N s j). Qed.

(** * C23 Each slot is in exactly one place. *)
Theorem C23_slot_in_exactly_one_place :
  forall s x, creach N s -> recv s <> RNone -> rdropped s = false -> x < N ->
  exists p, located s x p /\ forall q, located s x q -> q = p.
Proof.
  intros s x Hr Hn Hd Hx. destruct (place_exists Hr Hx Hn Hd) as [p Hp]. exists p. split; [exact Hp|].
  intros q Hq. exact (place_unique _ _ _ Hr Hq Hp).
Qed.

(** Also after the receiver is dropped nobody shares a slot. *)
Theorem C23_never_aliased :
  forall s x p q, creach N s -> located s x p -> located s x q -> p = q /\ x < N.
Proof. intros s x p q Hr Hp Hq. split; [exact (place_unique _ _ _ Hr Hp Hq)|exact (place_bound _ _ Hr Hp)]. Qed.

(** No queue overflows, no uninitialised slot is read, no live value is overwritten, no counter underflows;
    at most [N] values are buffered, all initialised. *)
Theorem C23_no_failure :
  forall s, creach N s -> bug s = false /\ NoDup (readyq s) /\ NoDup (freeq s) /\ length (readyq s) <= N /\ length (freeq s) <= N /\
  (forall x, In x (readyq s) -> slots s x <> None).
Proof.
  intros s Hr. split; [exact (A_b (InvAll_reach Hr))|]. destruct (queues_nodup Hr) as (H1 & H2 & H3 & H4).
  repeat split; auto. intros x. apply (initialised x Hr).
Qed.

(** * C24 try_send *)
Theorem C24_full_only_for_cause :
  forall s l s' j v, creach N s -> step N s l = Some s' -> emits s s' (EFull j v) -> wq s <> [] \/ freeq s = [].
Proof. intros s l s' j v Hr Hs He. exact (emits_may l Hr Hs He). Qed.

Theorem C24_no_receiver_only_for_cause :
  forall s l s' j v, creach N s -> step N s l = Some s' -> emits s s' (ENoRecv j v) -> rdropped s = true.
Proof.
  intros s l s' j v Hr Hs He. destruct (emits_may l Hr Hs He) as [[_ H]|H]; [exact H|].
  exact (InvE_reach Hr j (or_intror H)).
Qed.

(** Nobody barges: whoever takes a slot out of the free list does so when no sender waits. *)
Theorem C24_no_barging :
  forall s, creach N s -> freeq s <> [] -> wq s = [].
Proof.
  intros s Hr Hf. destruct (wq s) eqn:E; [reflexivity|]. exfalso. apply Hf.
  apply (ChannelInv.L_free (A_L (InvAll_reach Hr))). congruence.
Qed.

(** Wait-freedom: an operation past its waiting stage (all of try_send) finishes within five steps of its own,
    whatever the others do. *)
Theorem C24_wait_free :
  forall s j, steps_left (h_pc (hs s j)) > 0 ->
  (exists s', step N s (LStep j) = Some s' /\ steps_left (h_pc (hs s' j)) < steps_left (h_pc (hs s j))) /\
  (forall l s', step N s l = Some s' -> owner l <> Some j -> h_pc (hs s' j) = h_pc (hs s j)) /\
  steps_left (h_pc (hs s j)) <= 5.
Proof.
  intros s j H. split; [exact (own_step_progress N s j H)|]. split; [intros l s'; exact (@others_keep_pc V N s l s' j)|].
  destruct (h_pc (hs s j)); simpl; lia.
Qed.

(** * C25 A slot obtained while sender [j] waits is obtained by a sender that started to wait no later than
    [j], and that sender has been woken. *)
Theorem C25_longest_waiting_first :
  forall s l s' k x j, creach N s -> step N s l = Some s' -> In j (wq s) ->
  hheld (hs s k) = None -> hheld (hs s' k) = Some x ->
  In k (wq s) /\ h_seq (hs s k) <= h_seq (hs s j) /\ h_woken (hs s' k) = true.
Proof. intros s l s' k x j Hr Hs Hj Hn Hx. exact (acquire_fifo l k j Hr Hs Hn Hx Hj). Qed.

(** The queue is in order of starting to wait, without repetition; it holds exactly the senders whose future
    is queued; and a free slot never sits idle while somebody waits. *)
Theorem C25_queue_is_in_order :
  forall s, creach N s ->
  Sorted.StronglySorted (fun a b => h_seq (hs s a) < h_seq (hs s b)) (wq s) /\ NoDup (wq s) /\
  (forall j, In j (wq s) <-> h_link (hs s j) = LQueued) /\ (wq s <> [] -> freeq s = []).
Proof.
  intros s Hr. pose proof (InvX_reach Hr) as [[HL _ _ _] _ _ _ HS].
  split; [exact (S_sorted HS)|]. split; [exact (ChannelInv.L_nd HL)|]. split; [exact (ChannelInv.L_in HL)|exact (ChannelInv.L_free HL)].
Qed.

(** A sender taken out of the queue has been woken (no lost wake-up on the sending side). *)
Theorem C25_popped_is_woken :
  forall s j, creach N s -> h_link (hs s j) = LPopped -> h_woken (hs s j) = true.
Proof. intros s j Hr. exact (S_woken (X_S (InvX_reach Hr)) j). Qed.

(** * C26 Cancellation *)
Theorem C26_cancel_leaves_nothing :
  forall s j, creach N s -> h_pc (hs s j) = HIdle -> ~ In j (wq s) /\ hheld (hs s j) = None.
Proof. intros s j. exact (@idle_clean V N s j). Qed.

(** The last step of a dropped future that had been given slot [x]: [x] goes to the longest-waiting sender,
    which is woken, or back to the free list. *)
Theorem C26_cancel_returns_slot :
  forall s j v x, creach N s -> h_pc (hs s j) = SDrop2 DCancel v -> hheld (hs s j) = Some x ->
  exists s', step N s (LStep j) = Some s' /\ h_pc (hs s' j) = HIdle /\ hheld (hs s' j) = None /\
    match wq s with
    | [] => located s' x AtFree
    | k :: _ => located s' x (AtSender k) /\ h_woken (hs s' k) = true /\ emits s s' (EHand k x)
    end.
Proof. intros s j v x Hr Hp Hh. apply (@drop_returns_slot V N s j DCancel v x Hr Hp); [discriminate|exact Hh]. Qed.

(** A waiting future can be dropped at any time, and its drop completes in two steps of its own. *)
Theorem C26_cancel_completes :
  forall s j v, h_pc (hs s j) = SWait v ->
  exists s', run (step N) s [LCancel j; LStep j; LStep j] = Some s' /\ h_pc (hs s' j) = HIdle /\ emits s s' (ECancel j v).
Proof.
  intros s j v Hp. simpl. rewrite Hp. simpl. rewrite upd_same. simpl. rewrite upd_same. simpl.
  match goal with |- context [finish ?x j _] => set (t := x) end.
  eexists; split; [reflexivity|]. unfold finish. simpl. rewrite upd_same. split; [reflexivity|].
  assert (X : exists evs, log t = log s ++ evs).
  { subst t. match goal with |- context [match ?h with Some _ => _ | None => _ end] => destruct h end.
    - rewrite return_log. simpl. eauto.
    - simpl. exists []. now rewrite app_nil_r. }
  destruct X as (evs & X). exists (evs ++ [ECancel j v]). simpl. rewrite X. split; [now rewrite app_assoc|].
  apply in_app_iff. right. now left.
Qed.

(** * C27 A receiver asleep on a channel that has a value, or no senders, has been woken (once the senders'
    operations in progress have finished). *)
Theorem C27_receiver_not_left_sleeping :
  forall s w, creach N s -> recv s = RSleep w -> readyq s <> [] \/ nsend s = 0 ->
  (forall j, steps_left (h_pc (hs s j)) = 0) -> r_woken s = true.
Proof. intros s w. exact (@receiver_woken V N s w). Qed.

(** [r_woken] is cleared by each registration and the woken waker is the registered one: while not woken,
    the registered waker is the one of the last poll. *)
Theorem C27_registered_waker_is_current :
  forall s w, creach N s -> recv s = RSleep w -> rwaker s = Some w \/ r_woken s = true.
Proof. intros s w Hr Hp. apply (R_reg (X_R (InvX_reach Hr))). now rewrite Hp. Qed.

Theorem C27_sender_count_exact :
  forall s, creach N s -> exists l, NoDup l /\ (forall j, In j l <-> alive (h_pc (hs s j)) = true) /\ nsend s = length l.
Proof. intros s Hr. exact (A_N (InvAll_reach Hr)). Qed.

(** * C28 NoSender means that all senders are gone (but see the refutation of the rest below). *)
Theorem C28_no_sender_partial :
  forall s l s', creach N s -> step N s l = Some s' -> emits s s' ENoSender ->
  forall j, alive (h_pc (hs s j)) = false.
Proof. intros s l s'. exact (@no_sender_all_gone V N s s' l). Qed.

(** * C29 Receiver drop *)
Theorem C29_waiting_senders_are_released_partial :
  forall s j v, creach N s -> recv s = RDead -> h_pc (hs s j) = SWait v -> ~ In j (wq s) /\ h_woken (hs s j) = true.
Proof. intros s j v. exact (@dead_released V N s j v). Qed.

Theorem C29_waiting_senders_fail_with_value_partial :
  forall s j v w, creach N s -> rdropped s = true -> h_pc (hs s j) = SWait v ->
  exists s', run (step N) s [LPoll j w; LStep j; LStep j] = Some s' /\ h_pc (hs s' j) = HIdle /\ emits s s' (ENoRecv j v).
Proof. intros s j v w. exact (@waiting_released V N s j v w). Qed.

(** From the moment the receiver is dropped, an operation that has not obtained a slot yet, and every later
    operation, commits nothing. *)
Theorem C29_no_commit_after_drop_partial :
  forall s s' ls j, creach N s -> rdropped s = true -> uncommitted (h_pc (hs s j)) = true ->
  run (step N) s ls = Some s' ->
  filter (fun c => Nat.eqb (fst c) j) (commits (log s')) = filter (fun c => Nat.eqb (fst c) j) (commits (log s)).
Proof. intros s s' ls j. exact (@late_run V N ls s s' j). Qed.

(** The drop, run without interference, terminates, empties both queues, and every committed value has been
    received or dropped exactly once. *)
Theorem C29_drop_releases_values_partial :
  forall s, creach N s -> recv s = RIdle ->
  exists s', run (step N) s (LDropR :: repeat LRStep (2 * length (readyq s) + 1 + (length (wq s) + 1))) = Some s' /\
    recv s' = RDead /\ readyq s' = [] /\ wq s' = [] /\
    Permutation (map snd (commits (log s'))) (recvs (log s') ++ drops (log s')).
Proof. intros s. exact (@drop_completes V N s). Qed.

(** With interference: when the draining loop ends, everything committed so far was received or dropped. *)
Theorem C29_drained_partial :
  forall s s', creach N s -> recv s = RDrain -> step N s LRStep = Some s' -> recv s' = RWakeAll ->
  Permutation (map snd (commits (log s'))) (recvs (log s') ++ drops (log s')).
Proof. intros s s'. exact (@drained_conserved V N s s'). Qed.

(** * C30 Split again: the second channel is always closed. *)
Theorem C30_resplit_refuted :
  forall s v, creach N s -> recv s = RDead ->
  rdropped (do_split N s) = true /\
  exists u, run (step N) (do_split N s) [LTry 0 v; LStep 0] = Some u /\ emits (do_split N s) u (ENoRecv 0 v).
Proof. intros s v. exact (@resplit_closed V N s v). Qed.
End Chan.

Print Assumptions C22_received_is_prefix_of_committed.
Print Assumptions C22_rest_is_buffered.
Print Assumptions C22_every_operation_has_one_outcome.
Print Assumptions C23_slot_in_exactly_one_place.
Print Assumptions C23_never_aliased.
Print Assumptions C23_no_failure.
Print Assumptions C24_full_only_for_cause.
Print Assumptions C24_no_receiver_only_for_cause.
Print Assumptions C24_no_barging.
Print Assumptions C24_wait_free.
Print Assumptions C25_longest_waiting_first.
Print Assumptions C25_queue_is_in_order.
Print Assumptions C25_popped_is_woken.
Print Assumptions C26_cancel_leaves_nothing.
Print Assumptions C26_cancel_returns_slot.
Print Assumptions C26_cancel_completes.
Print Assumptions C27_receiver_not_left_sleeping.
Print Assumptions C27_registered_waker_is_current.
Print Assumptions C27_sender_count_exact.
Print Assumptions C28_no_sender_partial.
Print Assumptions C29_waiting_senders_are_released_partial.
Print Assumptions C29_waiting_senders_fail_with_value_partial.
Print Assumptions C29_no_commit_after_drop_partial.
Print Assumptions C29_drop_releases_values_partial.
Print Assumptions C29_drained_partial.
Print Assumptions C30_resplit_refuted.

(** * Concrete cases *)
Definition trysend (j v : nat) : list (label nat) := LTry j v :: repeat (LStep j) 5.
Definition tryrecv : list (label nat) := LTryRecv :: repeat LRStep 3.

Ltac runs := eexists; split; [vm_compute; reflexivity|vm_compute; repeat split].

(** Two senders fill a 2-slot channel, a third waits, a value is received: the slot is handed over. *)
Example C22_case : exists s,
  run (step 2) chan_new ([LSplit; LClone 0 1; LClone 0 2] ++ trysend 0 7 ++ trysend 1 8 ++ [LSend 2 9; LPoll 2 50] ++ tryrecv) = Some s /\
  map snd (commits (log s)) = [7; 8] /\ recvs (log s) = [7] /\ readyq s = [1] /\ slots s 1 = Some 8 /\
  hheld (hs s 2) = Some 0 /\ h_woken (hs s 2) = true /\ h_link (hs s 2) = LPopped /\ rdropped s = false /\ recv s = RIdle.
Proof. runs. Qed.

(** Two senders wait (1 started before 2); the slot freed goes to 1. *)
Example C25_case : exists s s',
  run (step 1) chan_new ([LSplit; LClone 0 1; LClone 0 2] ++ trysend 0 7 ++ [LSend 1 8; LPoll 1 50; LSend 2 9; LPoll 2 60; LTryRecv; LRStep; LRStep]) = Some s /\
  step 1 s LRStep = Some s' /\ wq s = [1; 2] /\ hheld (hs s 1) = None /\ hheld (hs s' 1) = Some 0 /\ In 2 (wq s).
Proof. do 2 eexists. vm_compute. repeat split. auto. Qed.

(** The woken sender 1 is cancelled before it is polled again: the slot goes to 2. *)
Example C26_case : exists s,
  run (step 1) chan_new ([LSplit; LClone 0 1; LClone 0 2] ++ trysend 0 7 ++ [LSend 1 8; LPoll 1 50; LSend 2 9; LPoll 2 60] ++ tryrecv ++ [LCancel 1; LStep 1]) = Some s /\
  h_pc (hs s 1) = SDrop2 DCancel 8 /\ hheld (hs s 1) = Some 0 /\ wq s = [2].
Proof. runs. Qed.

(** try_send on a full channel. *)
Example C24_case : exists s,
  run (step 1) chan_new ([LSplit] ++ trysend 0 7 ++ [LTry 0 8; LStep 0; LStep 0]) = Some s /\
  log s = [EStart 0 7; ECommit 0 7; ESent 0 7; EStart 0 8; EFull 0 8].
Proof. runs. Qed.

(** The receiver sleeps, a value arrives. *)
Example C27_case : exists s,
  run (step 1) chan_new ([LSplit; LRecv 5; LRStep; LRStep; LRStep] ++ trysend 0 7) = Some s /\
  recv s = RSleep 5 /\ readyq s = [0] /\ r_woken s = true /\ In (EWakeR 5) (log s).
Proof. eexists. split; [vm_compute; reflexivity|]. vm_compute. repeat split. auto 10. Qed.

(** * C28: NoSender with a value still in the channel (the last sender sends and is dropped between the
    emptiness check, lines 593-596, and the sender check, lines 610-614). *)
Theorem C28_no_sender_only_when_drained_refuted :
  exists s s', creach 1 s /\ step 1 s LRStep = Some s' /\ emits s s' (@ENoSender nat) /\
    commits (log s') = [(0, 7)] /\ recvs (log s') = [] /\ readyq s' = [0] /\ In (ESent 0 7) (log s').
Proof.
  destruct (run (step 1) chan_new ([LSplit; LTryRecv; LRStep] ++ trysend 0 7 ++ [LDropS 0; LStep 0])) as [s|] eqn:E; [|vm_compute in E; discriminate].
  assert (Hr : creach 1 s) by (eexists; exact E).
  exists s. vm_compute in E. injection E as <-. eexists. split; [exact Hr|]. split; [reflexivity|].
  split; [exists [ENoSender]; split; [reflexivity|now left]|]. vm_compute. repeat split. auto.
Qed.
Print Assumptions C28_no_sender_only_when_drained_refuted.

(** * C29: a try_send that passed the receiver check before the drop completes afterwards: it reports Ok and
    its value stays in the dead channel, neither received nor dropped. *)
Theorem C29_ok_after_drop_refuted :
  exists s s', creach 1 s /\ recv s = RDead /\ rdropped s = true /\ commits (log s) = [] /\
    run (step 1) s [LStep 0; LStep 0; LStep 0; LStep 0] = Some s' /\
    In (ESent 0 7) (log s') /\ recvs (log s') = [] /\ drops (log s') = [] /\ readyq s' = [0] /\ slots s' 0 = Some 7.
Proof.
  destruct (run (step 1) chan_new [LSplit; LTry 0 7; LStep 0; LDropR; LRStep; LRStep]) as [s|] eqn:E; [|vm_compute in E; discriminate].
  assert (Hr : creach 1 s) by (eexists; exact E).
  exists s. vm_compute in E. injection E as <-. eexists. split; [exact Hr|]. split; [reflexivity|]. split; [reflexivity|].
  split; [reflexivity|]. split; [reflexivity|]. vm_compute. repeat split. auto.
Qed.
Print Assumptions C29_ok_after_drop_refuted.

(** Normal case of C29: one value buffered, one sender waiting, then the receiver is dropped. *)
Example C29_case : exists s,
  run (step 1) chan_new ([LSplit; LClone 0 1] ++ trysend 0 7 ++ [LSend 1 8; LPoll 1 50; LDropR] ++ repeat LRStep 5 ++ [LPoll 1 50; LStep 1; LStep 1]) = Some s /\
  recv s = RDead /\ log s = [EStart 0 7; ECommit 0 7; ESent 0 7; EStart 1 8; EDropV 7; EWakeS 1; ENoRecv 1 8].
Proof. runs. Qed.

(** * C30: everything dropped, then split again: reachable, and after the race of C29 the debug_assert at
    line 117 fails as well. *)
Example C30_case : exists s,
  run (step 1) chan_new [LSplit; LDropS 0; LStep 0; LDropR; LRStep; LRStep] = Some s /\ recv s = @RDead nat /\ h_pc (hs s 0) = HGone /\ bug (do_split 1 s) = false.
Proof. runs. Qed.

Theorem C30_resplit_assert_refuted : exists s, creach 1 s /\ recv s = @RDead nat /\ h_pc (hs s 0) = HGone /\ bug (do_split 1 s) = true.
Proof.
  destruct (run (step 1) chan_new [LSplit; LTry 0 7; LStep 0; LDropR; LRStep; LRStep; LStep 0; LStep 0; LStep 0; LStep 0; LDropS 0; LStep 0]) as [s|] eqn:E; [|vm_compute in E; discriminate].
  exists s. split; [eexists; exact E|]. vm_compute in E. injection E as <-. vm_compute. repeat split.
Qed.
Print Assumptions C30_resplit_assert_refuted.

(** * C49 (send): a send future polled with waker 50 and again with waker 51 is woken through waker 50
    (line 465 returns Pending without refreshing the waker in the link). *)
Theorem C49_send_newest_waker_refuted : exists s s', creach 1 s /\ h_pc (hs s 1) = SWait 8 /\ h_link (hs s 1) = LQueued /\
  step 1 s (LPoll 1 51) = Some s' /\ h_waker (hs s' 1) = 50.
Proof.
  destruct (run (step 1) chan_new ([LSplit; LClone 0 1] ++ trysend 0 7 ++ [LSend 1 8; LPoll 1 50])) as [s|] eqn:E; [|vm_compute in E; discriminate].
  exists s. eexists. split; [eexists; exact E|]. vm_compute in E. injection E as <-. vm_compute. repeat split.
Qed.
Print Assumptions C49_send_newest_waker_refuted.
