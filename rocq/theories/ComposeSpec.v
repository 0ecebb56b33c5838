(** Specification vocabulary for C63: an application whose tasks await channels, arbiters, signals, watches and
    delays, any number of each; and what it means that the thing a task waits for has happened. *)
From Verif Require Import Base LTS ExecModel ComposeModel ComposeChannel ComposeArbiter ComposeSignal ComposeTimer.
From Verif Require ChannelModel ChannelSpec ArbiterModel SignalModel TimerQueueModel.
Open Scope Z_scope.
Set Implicit Arguments.

Section World.
Context {VC VA VS VW : Type} (cap : nat -> nat) (a0 : nat -> VA) (w slack c0 : Z).

(** channels (capacity [cap i]), arbiters, signals, watches, and the timer queue of a monotonic *)
Definition world :=
  beside (many (fun i => chan_comp (V := VC) (cap i)))
 (beside (many (fun i => arb_comp (a0 i)))
 (beside (many (fun _ : nat => sig_comp (V := VS) SignalModel.KSignal))
 (beside (many (fun _ : nat => sig_comp (V := VW) SignalModel.KWatch))
         (tim_comp w slack c0)))).

Definition world_state : Type :=
  ((nat -> ChannelModel.chan VC) * ((nat -> @ArbiterModel.arb VA) * ((nat -> @SignalModel.sig VS) * ((nat -> @SignalModel.sig VW) * TimerQueueModel.tq))))%type.
Definition w_chan (s : world_state) := fst s.
Definition w_arb (s : world_state) := fst (snd s).
Definition w_sig (s : world_state) := fst (snd (snd s)).
Definition w_watch (s : world_state) := fst (snd (snd (snd s))).
Definition w_timer (s : world_state) := snd (snd (snd (snd s))).

(** Task [t] is suspended, and what it waits for has happened. *)
Inductive happened (s : world_state) (t : nat) : Prop :=
| hp_recv i :                          (* in [recv]: a value is in the channel, or all senders are gone *)
    ChannelModel.recv (w_chan s i) = ChannelModel.RSleep t ->
    ChannelModel.readyq (w_chan s i) <> [] \/ ChannelModel.nsend (w_chan s i) = 0%nat ->
    (forall j, ChannelSpec.steps_left (ChannelModel.h_pc (ChannelModel.hs (w_chan s i) j)) = 0%nat) ->   (* no sender is in the middle of an operation *)
    happened s t
| hp_send i j v :                      (* in [send]: a slot is free, or the receiver is gone, or it is no longer in the queue of waiting senders *)
    ChannelModel.h_pc (ChannelModel.hs (w_chan s i) j) = ChannelModel.SWait v ->
    ChannelModel.h_waker (ChannelModel.hs (w_chan s i) j) = t ->
    ChannelModel.freeq (w_chan s i) <> [] \/ ChannelModel.recv (w_chan s i) = ChannelModel.RDead \/ ~ In j (ChannelModel.wq (w_chan s i)) ->
    happened s t
| hp_access i j :                      (* in [access], polled once: the arbiter is free, or it is no longer in the queue *)
    ArbiterModel.a_pc (ArbiterModel.cl (w_arb s i) j) = ArbiterModel.AWait ->
    ArbiterModel.a_link (ArbiterModel.cl (w_arb s i) j) <> ArbiterModel.KNone ->
    ArbiterModel.a_waker (ArbiterModel.cl (w_arb s i) j) = t ->
    ArbiterModel.taken (w_arb s i) = false \/ ~ In j (ArbiterModel.awq (w_arb s i)) ->
    happened s t
| hp_wait i j :                        (* in [Signal::wait]: a value is there *)
    SignalModel.rd (w_sig s i) j = SignalModel.QSleep t ->
    SignalModel.store (w_sig s i) <> None ->
    (forall k, SignalModel.wr (w_sig s i) k = false) ->              (* no write is in progress *)
    happened s t
| hp_changed i j :                     (* in [Watch::changed]: a value not marked as seen is there *)
    SignalModel.rd (w_watch s i) j = SignalModel.QSleep t ->
    SignalModel.store (w_watch s i) <> None -> SignalModel.seen (w_watch s i) = false ->
    (forall k, SignalModel.wr (w_watch s i) k = false) ->
    happened s t
| hp_delay i :                         (* in a delay: its instant (and the backend's minimum distance) has passed, *)
    TimerQueueModel.f_pc (TimerQueueModel.futs (w_timer s) i) = TimerQueueModel.DPending ->
    TimerQueueModel.f_waker (TimerQueueModel.futs (w_timer s) i) = t ->
    TimerQueueModel.f_T (TimerQueueModel.futs (w_timer s) i) + slack <= TimerQueueModel.clock (w_timer s) ->
    TimerQueueModel.handler (w_timer s) = TimerQueueModel.HIdle ->   (* and the timer interrupt has nothing left to do *)
    TimerQueueModel.irq_sw (w_timer s) = false -> TimerQueueModel.irq_cmp (w_timer s) = false ->
    (forall k, TimerQueueModel.f_pc (TimerQueueModel.futs (w_timer s) k) <> TimerQueueModel.DPend) ->
    happened s t.
End World.
