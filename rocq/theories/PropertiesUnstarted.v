(** C67: waiting on a monotonic that was never started.

    [u_reach w slack c0 s]: state [s] of a program using one monotonic, reachable by any schedule in which live
    deadlines lie in one half-range window; [u_on s] says whether [start] has run; [u_panics s] lists the futures
    whose construction panicked. *)
From Verif Require Import Base LTS TicksModel TimerListSpec TimerQueueModel TimerQueueProofs.
From Verif Require Import UnstartedModel UnstartedProofs.
Open Scope Z_scope.
Set Implicit Arguments.

Section C67.
Context (w slack : Z) (Hw : 1 <= w).

(** Asked for before [start], a delay panics at once, whatever the program did before, and nothing is queued. *)
Theorem C67_delay_panics_partial :
  forall c0 s i T, u_reach w slack c0 s -> u_on s = false ->
  exists s', u_step w slack s (UDelay i T) = Some s' /\ u_panics s' = u_panics s ++ [i] /\ u_q s' = u_q s.
Proof. intros c0 s i T _ Ho. eexists. split; [apply delay_off; exact Ho|]. split; reflexivity. Qed.

(** So before [start] the only futures that exist were made by [timeout_at] / [timeout_after]. *)
Theorem C67_only_timeouts_before_start :
  forall c0 ls s i, run (u_step w slack) (u_init c0) ls = Some s -> u_on s = false ->
  f_pc (futs (u_q s) i) <> DNone -> exists T, In (UTimeout i T) ls.
Proof. intros c0 ls s i R Ho Hn. eapply off_made_by_timeout; eauto. Qed.

(** Nothing panics once [start] has run, and [start] is never undone. *)
Theorem C67_started_never_panics :
  forall s l s', u_step w slack s l = Some s' -> u_on s = true -> u_panics s' = u_panics s /\ u_on s' = true.
Proof.
  intros s l s' H Ho. split; [|eapply u_on_mono; eauto].
  destruct (list_eq_dec Nat.eq_dec (u_panics s') (u_panics s)) as [E|E]; [exact E|].
  destruct (@panics_only _ _ _ _ _ H E) as [Hf _]. congruence.
Qed.

(** A timeout made before [start] works once [start] has run: its deadline is not missed and it is not early. *)
Theorem C67_served_after_start :
  forall c0 s i T, u_reach w slack c0 s -> In (i, T) (queue (u_q s)) -> handler (u_q s) = HIdle ->
  T + slack <= clock (u_q s) ->
  irq_sw (u_q s) = true \/ irq_cmp (u_q s) = true \/ exists j, f_pc (futs (u_q s) j) = DPend.
Proof. intros c0 s i T R Hin Hh Hc. exact (no_missed_deadline Hw _ _ (U_safe (UInv_reach Hw R)) Hh Hin Hc). Qed.

(** Without [start] it sleeps: no panic, never complete, never woken, in any continuation. *)
Theorem C67_timeout_sleeps :
  forall c0 s i, u_reach w slack c0 s -> u_on s = false ->
  f_pc (futs (u_q s) i) <> DNone -> clock (u_q s) < f_T (futs (u_q s) i) ->
  forall ls s', guarded (u_step w slack) (@u_guard w) s ls -> Forall (fun l => l <> UStart) ls ->
  run (u_step w slack) s ls = Some s' ->
  u_on s' = false /\ clock (u_q s') = clock (u_q s) /\
  f_pc (futs (u_q s') i) <> DReady /\ forall k t, ~ In (i, k, t) (log (u_q s')).
Proof. exact (timeout_sleeps Hw). Qed.
End C67.

(** The property fails for timeouts: one is made and polled before [start], nothing panics, it is queued as if all
    were well, and without [start] it neither completes nor is woken, whatever happens afterwards. *)
Definition sleepy : list ulabel := [UTimeout 0 15; UQ (Poll 0 7); UQ (Insert 0); UQ (Pend 0)].

Lemma sleepy_guarded : guarded (u_step 32 0) (@u_guard 32) (u_init 10) sleepy.
Proof.
  assert (W : forall s : unst, clock (u_q s) = 10 -> handler (u_q s) = HIdle ->
    (f_pc (futs (u_q s) 0%nat) = DNone \/ f_T (futs (u_q s) 0%nat) = 15) ->
    (forall i, f_pc (futs (u_q s) (S i)) = DNone) -> in_window 32 (u_q s)).
  { intros s H1 H2 H3 H4. exists 10, 15. split; [reflexivity|]. split; [lia|]. split.
    - intros [|i] Hi _; [destruct H3; [contradiction|lia]|rewrite H4 in Hi; contradiction].
    - rewrite H2. intros T [H|[H|H]]; discriminate. }
  unfold sleepy.
  repeat (split; [unfold u_guard; apply W; [vm_compute; reflexivity|vm_compute; reflexivity|vm_compute; auto|vm_compute; reflexivity]|];
    match goal with |- context [u_step ?w ?k ?s ?l] =>
        let r := eval vm_compute in (u_step w k s l) in change (u_step w k s l) with r end; cbv iota beta).
  exact I.
Qed.

Theorem C67_timeout_before_start_refuted :
  exists s, u_reach 32 0 10 s /\ u_on s = false /\ u_panics s = [] /\
    f_pc (futs (u_q s) 0%nat) = DPending /\ queue (u_q s) = [(0%nat, 15)] /\
    forall ls s', guarded (u_step 32 0) (@u_guard 32) s ls -> Forall (fun l => l <> UStart) ls ->
      run (u_step 32 0) s ls = Some s' ->
      f_pc (futs (u_q s') 0%nat) <> DReady /\ forall k t, ~ In (0%nat, k, t) (log (u_q s')).
Proof.
  destruct (run (u_step 32 0) (u_init 10) sleepy) as [s|] eqn:E; [|vm_compute in E; discriminate].
  exists s.
  assert (R : u_reach 32 0 10 s) by (exists sleepy; split; [exact sleepy_guarded|exact E]).
  assert (F : u_on s = false /\ u_panics s = [] /\ f_pc (futs (u_q s) 0%nat) = DPending /\
              queue (u_q s) = [(0%nat, 15)] /\ clock (u_q s) = 10 /\ f_T (futs (u_q s) 0%nat) = 15).
  { clear R. vm_compute in E. injection E as <-. vm_compute. auto 10. }
  destruct F as (F1 & F2 & F3 & F4 & F5 & F6).
  repeat (split; [assumption|]). intros ls s' G N Hr.
  assert (H32 : 1 <= 32) by lia.
  destruct (C67_timeout_sleeps (slack := 0) H32 0%nat R F1 ltac:(rewrite F3; discriminate) ltac:(lia) G N Hr)
    as (_ & _ & K1 & K2). split; assumption.
Qed.

(** The same program with [start] at the end: the timeout is woken at its deadline. *)
Example C67_started_case :
  exists s, run (u_step 32 0) (u_init 10)
    (sleepy ++ [UStart; UQ IrqEnter; UQ HClearL; UQ HPop; UQ HEnableL; UQ (HSetL (Some 15)); UQ HCheckL;
       UQ Tick; UQ Tick; UQ Tick; UQ Tick; UQ Tick; UQ IrqEnter; UQ HClearL; UQ HPop; UQ HWakeL; UDelay 1 20]) = Some s /\
    log (u_q s) = [(0%nat, 7%nat, 15)] /\ u_panics s = [] /\ f_pc (futs (u_q s) 1%nat) = DNew.
Proof. match goal with |- context [run ?f ?a ?b] => destruct (run f a b) as [s|] eqn:E end; vm_compute in E; [|discriminate].
  exists s. injection E as <-. vm_compute. auto 10. Qed.
Example C67_panic_case :
  exists s, run (u_step 32 0) (u_init 10) [UTimeout 0 15; UDelay 1 12; UStart; UDelay 2 12] = Some s /\
    u_panics s = [1%nat] /\ f_pc (futs (u_q s) 1%nat) = DNone.
Proof. match goal with |- context [run ?f ?a ?b] => destruct (run f a b) as [s|] eqn:E end; vm_compute in E; [|discriminate].
  exists s. injection E as <-. vm_compute. auto 10. Qed.

Print Assumptions C67_delay_panics_partial.
Print Assumptions C67_only_timeouts_before_start.
Print Assumptions C67_started_never_panics.
Print Assumptions C67_served_after_start.
Print Assumptions C67_timeout_sleeps.
Print Assumptions C67_timeout_before_start_refuted.
