(** Property theorems about the shared-bus devices of rtic-sync (arbiter/spi.rs, arbiter/i2c.rs): C56, C57. *)
From Verif Require Import Base LTS ArbiterModel BusModel BusSpec BusProofs.
Set Implicit Arguments.

(** * C56 Transactions of devices sharing a bus do not interleave, and each does exactly what it was asked.
    For any number of blocking and async SPI and I2C devices and direct users of the arbiter, any results of bus and
    pin, any cancellation and any schedule: the bus sees one visit after the other; an SPI visit is chip select low,
    the operations in order up to the first failure, flush, chip select high, and the first error returned (see
    [spi_trace]); a visit whose future is dropped is a beginning of that; and the visits, in order, are for the
    operations last asked of the device each time it obtained the bus. *)
Theorem C56_transactions_do_not_interleave :
  forall kind sched s, run (bstep kind) bus_new sched = Some s ->
  serial kind (b_log s) /\ gots (b_log s) = wanted (fun _ => []) sched.
Proof.
  intros kind sched s R. split.
  - apply serial_log. exists sched. exact R.
  - exact (run_gots _ _ _ R).
Qed.
Print Assumptions C56_transactions_do_not_interleave.

(** Device 0 (async SPI) writes and, in the delay, is overtaken by device 1 (I2C) asking for the bus and having to
    wait; then its second operation fails, yet it flushes, releases chip select and returns the error; then device 1
    has the bus. *)
Definition ex_kind (j : nat) : dkind := match j with 0 => KSpi false | 1 => KI2c false | 2 => KSpi true | _ => KDirect end.
Definition ex_sched : list blabel :=
  [LCall 0 [OBus 7; ODelay 100; OBus 8; OBus 9]; LPoll 0 50; LGot 0; LLow 0 None true; LStart 0; LDone 0 None; LStart 0; LDone 0 None;
   LCall 1 [OBus 3]; LPoll 1 51; LSlept 0; LStart 0; LDone 0 (Some 4); LStart 0; LDone 0 None; LHigh 0 None false; LRet 0;
   LPoll 1 51; LGot 1; LStart 1; LDone 1 None; LRet 1].
Example C56_case : exists s, run (bstep ex_kind) bus_new ex_sched = Some s /\
  b_log s = map (pair 0) [EvGot [OBus 7; ODelay 100; OBus 8; OBus 9]; EvLow None; EvCall (COp 7); EvDone None; EvCall CFlush; EvDone None; EvDelay 100;
                          EvCall (COp 8); EvDone (Some 4); EvCall CFlush; EvDone None; EvHigh None; EvRet (Some (BBus 4))] ++
            map (pair 1) [EvGot [OBus 3]; EvCall (COp 3); EvDone None; EvRet None].
Proof. eexists. split; vm_compute; reflexivity. Qed.

(** * C57 At most one chip select is low, and only that of the device that has the bus.
    Partial: as long as no future is dropped in the middle of its transaction and no chip select pin fails; that the
    first is needed is C57_dropped_transaction_refuted. *)
Theorem C57_one_chip_select_partial :
  forall kind s, gentle_reach kind s ->
  (forall i j, b_cs s i = true -> b_cs s j = true -> i = j) /\
  (forall j, b_cs s j = true -> on_bus s j) /\
  (forall log j b c, kind j = KSpi b -> b_log s = log ++ [(j, EvCall c)] -> b_cs s j = true).
Proof.
  intros kind s R. split; [|split].
  - intros i j Hi Hj. destruct (BInv_reach (gentle_breach R)) as [A _ _ _]. eapply (@one_on_bus s i j A); eapply asserted_on; eauto.
  - intros j H. eapply asserted_on; eauto.
  - intros log j b c K E. eapply calling_selected; eauto.
Qed.
Print Assumptions C57_one_chip_select_partial.

Example C57_case : exists s, gentle_reach ex_kind s /\ b_cs s 0 = true /\ b_cs s 2 = false /\ b_pc s 2 = BAcc /\
  exists log, b_log s = log ++ [(0, EvCall (COp 7))].
Proof.
  set (ls := [LCall 0 [OBus 7]; LPoll 0 50; LGot 0; LLow 0 None true; LStart 0; LCall 2 [OBus 8]; LPoll 2 52]).
  destruct (run (bstep ex_kind) bus_new ls) as [s|] eqn:E; [|vm_compute in E; discriminate]. exists s.
  split; [exists ls; split; [vm_compute; repeat split|exact E]|]. vm_compute in E. injection E as <-. repeat split.
  exists [(0, EvGot [OBus 7]); (0, EvLow None)]. reflexivity.
Qed.

(** The future of device 0's transaction is dropped in the delay between two operations (or in a bus call): its chip
    select stays low, and device 2 then talks on the bus with both chips selected. *)
Theorem C57_dropped_transaction_refuted :
  exists sched s log, run (bstep ex_kind) bus_new sched = Some s /\
  b_cs s 0 = true /\ b_cs s 2 = true /\ b_log s = log ++ [(2, EvCall (COp 8))] /\ ~ In (0, EvCall (COp 8)) (b_log s).
Proof.
  exists [LCall 0 [ODelay 100; OBus 7]; LPoll 0 50; LGot 0; LLow 0 None true; LStart 0; LDone 0 None; LDrop 0;
          LCall 2 [OBus 8]; LPoll 2 52; LGot 2; LLow 2 None true; LStart 2].
  eexists. exists (map (pair 0) [EvGot [ODelay 100; OBus 7]; EvLow None; EvCall CFlush; EvDone None; EvDelay 100; EvCancel] ++ [(2, EvGot [OBus 8]); (2, EvLow None)]).
  split; [vm_compute; reflexivity|]. vm_compute. repeat split; auto. intuition discriminate.
Qed.
Print Assumptions C57_dropped_transaction_refuted.
