(** C76: the timer interrupt runs for cause, and comes to rest. *)
From Verif Require Import Base LTS TicksModel TimerListSpec TimerQueueModel TimerQueueProofs PropertiesTime.
Open Scope Z_scope.
Set Implicit Arguments.

(** * Specification *)
Section Spec.
Context (w slack : Z).
(** How often the timer interrupt is taken in a schedule. *)
Fixpoint taken (ls : list tlabel) : nat :=
  match ls with [] => 0 | IrqEnter :: r => S (taken r) | _ :: r => taken r end%nat.
(** How often it is asked for: by a task that queues a delay at the head ([Pend]), or by the compare unit, when the clock
    reaches the armed value while the timer is on. *)
Definition asks (s : tq) (l : tlabel) : bool :=
  match l with
  | Pend _ => true
  | Tick => match armed s with Some a => enabled s && (a =? clock s + 1) | None => false end
  | _ => false
  end.
Fixpoint asked (s : tq) (ls : list tlabel) : nat :=
  match ls with
  | [] => 0
  | l :: r => (if asks s l then 1 else 0) + match tq_step w slack s l with Some s' => asked s' r | None => 0 end
  end%nat.
(** Time stands still and no task does anything: only the interrupt is taken and its handler runs. *)
Definition only_handler (l : tlabel) : Prop :=
  match l with IrqEnter | HClearL | HPop | HWakeL | HEnableL | HSetL _ | HCheckL | HDisableL => True | _ => False end.
End Spec.

Section Proofs.
Context (w slack : Z).
Notation step := (tq_step w slack).
(** an entry is due *)
Definition pot (s : tq) : nat := if (irq_sw s || match handler s with HClear => false | _ => irq_cmp s end)%bool then 1 else 0.

Ltac inv E := simpl in E; repeat match type of E with
  | context [match ?x with _ => _ end] => let F := fresh "F" in destruct x eqn:F; try discriminate
  end; try (injection E as <-).
Lemma pot_step s l s' : step s l = Some s' -> (match l with IrqEnter => 1 | _ => 0 end + pot s' <= pot s + if asks s l then 1 else 0)%nat.
Proof.
  intros E. unfold pot. destruct l; inv E; unfold set_pc, set_fut, set_queue, set_handler; cbn [irq_sw irq_cmp handler asks]; rewrite ?F, ?F0, ?F1, ?F2;
    repeat match goal with
    | |- context [if ?b then _ else _] => destruct b eqn:?
    | |- context [match handler ?s with _ => _ end] => destruct (handler s)
    end; try lia; repeat match goal with H : (_ || _)%bool = true |- _ => apply orb_prop in H as [H|H] | H : (_ || _)%bool = false |- _ => apply orb_false_elim in H as [? ?] end; try congruence; try lia;
    destruct (handler s); rewrite ?orb_false_r in *; congruence.
Qed.
Lemma taken_run ls : forall s s', run step s ls = Some s' -> (taken ls + pot s' <= pot s + asked w slack s ls)%nat.
Proof.
  induction ls as [|l ls IH]; intros s s' R; simpl in R; [injection R as <-; simpl; lia|]. destruct (step s l) as [s1|] eqn:E; [|discriminate].
  specialize (IH _ _ R). pose proof (pot_step _ _ E) as Q. cbn [taken asked]. rewrite E. destruct l; cbn [taken]; lia.
Qed.

Definition loopw (n : nat) : nat := (2 * n + 5)%nat.
Definition phase (s : tq) : nat :=
  let n := length (queue s) in
  match handler s with
  | HIdle => 0
  | HDisable => 1
  | HCheck T => if due w (clock s) T then 1 + loopw n else 1
  | HSet T => if due w (clock s) T then 2 + loopw n else 2
  | HEnable T => if due w (clock s) T then 3 + loopw n else 3
  | HLoop => loopw n
  | HWake _ _ => 1 + loopw n
  | HClear => 1 + loopw n
  end%nat.
Definition hmu (s : tq) : nat := (phase s + pot s * (2 + loopw (length (queue s))))%nat.
Lemma hmu_dec s l s' : only_handler l -> step s l = Some s' -> (hmu s' < hmu s)%nat.
Proof.
  intros O E. unfold hmu, pot, phase, loopw. destruct l; try contradiction; inv E; unfold set_pc, set_fut, set_queue, set_handler; cbn [irq_sw irq_cmp handler queue clock length]; rewrite ?F; rewrite ?F0; rewrite ?F1; rewrite ?F2;
    repeat match goal with |- context [if ?b then _ else _] => destruct b eqn:? end; cbn [length]; try lia; try congruence;
    repeat match goal with H : (_ || _)%bool = true |- _ => apply orb_prop in H as [H|H] | H : (_ || _)%bool = false |- _ => apply orb_false_elim in H as [? ?] end; try congruence; try lia.
Qed.
End Proofs.

(** * C76 *)
(** From start-up, however tasks, handler and clock interleave, the interrupt is taken at most once for each time it is
    asked for. *)
Theorem C76_taken_only_for_cause w slack c ls s : run (tq_step w slack) (tq_init c) ls = Some s -> (taken ls <= asked w slack (tq_init c) ls)%nat.
Proof. intros R. pose proof (taken_run _ _ _ _ R) as Q. cbn in Q. lia. Qed.
(** From any state, while time stands still and no task acts: the interrupt is taken at most once more, and after at most
    [4 * n + 16] steps, [n] delays being queued, nothing is left to do. *)
Theorem C76_comes_to_rest w slack s ls s' : Forall only_handler ls -> run (tq_step w slack) s ls = Some s' ->
  (taken ls <= 1)%nat /\ (length ls <= 4 * length (queue s) + 16)%nat.
Proof.
  intros F R. split.
  - pose proof (taken_run _ _ _ _ R) as Q. assert (A : asked w slack s ls = 0%nat).
    { clear Q R. revert s. induction F as [|l ls O F IH]; intros s; [reflexivity|]. cbn [asked]. destruct (tq_step w slack s l) as [s1|]; [rewrite (IH s1)|]; destruct l; try contradiction; reflexivity. }
    rewrite A in Q. assert (pot s <= 1)%nat by (unfold pot; destruct (irq_sw s || _)%bool; lia). lia.
  - assert (L : (length ls + hmu w s' <= hmu w s)%nat).
    { revert s R. induction F as [|l ls O F IH]; intros s R; simpl in R; [injection R as <-; simpl; lia|]. destruct (tq_step w slack s l) as [s1|] eqn:E; [|discriminate]. specialize (IH _ R). pose proof (@hmu_dec _ _ _ _ _ O E). simpl. lia. }
    assert (hmu w s <= 4 * length (queue s) + 16)%nat; [|lia]. unfold hmu, phase, pot, loopw.
    destruct (irq_sw s || match handler s with HClear => false | _ => irq_cmp s end)%bool; destruct (handler s) as [| | |i k|T|T|T|]; try (destruct (due w (clock s) T)); lia.
Qed.
(** Nothing left to do means: the handler has returned, no interrupt is pended, and no queued delay is overdue (by more than the
    backend's minimum distance), unless a task that has just queued one is about to pend the interrupt. *)
Theorem C76_at_rest w slack s : 0 <= slack -> (forall l, only_handler l -> tq_step w slack s l = None) -> handler s = HIdle /\ irq_sw s = false /\ irq_cmp s = false.
Proof.
  intros Hs H. destruct (handler s) eqn:E.
  - specialize (H IrqEnter I). simpl in H. rewrite E in H. destruct (irq_sw s), (irq_cmp s); simpl in H; try discriminate. auto.
  - specialize (H HClearL I). simpl in H. rewrite E in H. discriminate.
  - specialize (H HPop I). simpl in H. rewrite E in H. destruct (queue s) as [|[i T] q]; [discriminate|]. destruct (due w (clock s) T); discriminate.
  - specialize (H HWakeL I). simpl in H. rewrite E in H. discriminate.
  - specialize (H HEnableL I). simpl in H. rewrite E in H. discriminate.
  - specialize (H (HSetL (Some (clock s + 1))) I). simpl in H. rewrite E in H. unfold arm_ok in H. destruct (Z.ltb_spec (clock s) T); [|discriminate].
    destruct (Z.ltb_spec (clock s) (clock s + 1)); [|lia]. destruct (Z.leb_spec (clock s + 1) (T + slack)); [discriminate|lia].
  - specialize (H HCheckL I). simpl in H. rewrite E in H. discriminate.
  - specialize (H HDisableL I). simpl in H. rewrite E in H. discriminate.
Qed.
Theorem C76_at_rest_nothing_overdue w slack c0 s : 1 <= w -> 0 <= slack -> safe_reach w slack c0 s -> (forall l, only_handler l -> tq_step w slack s l = None) ->
  (forall i, f_pc (futs s i) <> DPend) -> forall i T, In (i, T) (queue s) -> clock s < T + slack.
Proof.
  intros Hw Hs R H N i T In0. destruct (@C76_at_rest w slack s Hs H) as (E1 & E2 & E3). destruct (Z.lt_ge_cases (clock s) (T + slack)) as [L|L]; [exact L|exfalso].
  destruct (@C39_no_missed_deadline w slack Hw c0 s i T R E1 In0 L) as [X|[X|[j X]]]; [congruence|congruence|exact (N j X)].
Qed.
Print Assumptions C76_taken_only_for_cause.
Print Assumptions C76_comes_to_rest.
Print Assumptions C76_at_rest.
Print Assumptions C76_at_rest_nothing_overdue.

(** A delay to 12 queued at 10; the interrupt is taken for the pend and for the compare match, then nothing is left to do. *)
Example C76_case : exists ls s, run (tq_step 32 0) (tq_init 10) ls = Some s /\ taken ls = 2%nat /\ asked 32 0 (tq_init 10) ls = 2%nat /\
  log s = [(0%nat, 5%nat, 12)] /\ forall l, only_handler l -> tq_step 32 0 s l = None.
Proof.
  exists [Create 0 12; Poll 0 5; Insert 0; Pend 0; IrqEnter; HClearL; HPop; HEnableL; HSetL (Some 12); HCheckL; Tick; Tick; IrqEnter; HClearL; HPop; HWakeL; HPop; HDisableL].
  destruct (run (tq_step 32 0) (tq_init 10) [Create 0 12; Poll 0 5; Insert 0; Pend 0; IrqEnter; HClearL; HPop; HEnableL; HSetL (Some 12); HCheckL; Tick; Tick; IrqEnter; HClearL; HPop; HWakeL; HPop; HDisableL]) as [s|] eqn:E; vm_compute in E; [|discriminate].
  injection E as <-. eexists. split; [reflexivity|]. split; [reflexivity|]. split; [vm_compute; reflexivity|]. split; [reflexivity|]. intros [] H; simpl in H; try contradiction; reflexivity.
Qed.
