(** C68: a critical section in which a delay is polled stays a critical section.

    [m_susp s] are the contexts that were preempted and have not continued yet; [in_user_section c]: context [c] is
    inside [critical_section::with] of user code, a [lock] implemented by it, or [init]. *)
From Verif Require Import Base LTS PollMask PollMaskProofs.
Set Implicit Arguments.

(** Cortex-M: for every program, however it polls delays, no context inside a critical section is preempted. *)
Theorem C68_not_preempted_cortex :
  forall s c, reach (m_step TNvic) m_init s -> In c (m_susp s) -> ~ in_user_section c.
Proof. intros s c R. apply (exclusive (reach_nvic R)). Qed.

(** Outside a poll interrupts are off exactly inside critical sections: a poll leaves them as it found them. *)
Theorem C68_mask_restored_cortex :
  forall s, reach (m_step TNvic) m_init s -> c_todo (m_cur s) = [] ->
  m_on s = false <-> in_user_section (m_cur s).
Proof. intros s R. apply (mask_exact (reach_nvic R)). Qed.

(** and a poll always gets through. *)
Theorem C68_poll_proceeds_cortex :
  forall s, reach (m_step TNvic) m_init s -> c_todo (m_cur s) <> [] -> exists s', m_step TNvic s MOp = Some s'.
Proof. intros s R. apply (poll_steps (reach_nvic R)). Qed.

(** ESP32: the same for programs that poll delays only outside critical sections and outside [init]. *)
Theorem C68_not_preempted_esp_partial :
  forall s c, greach (m_step TEsp) poll_outside m_init s -> In c (m_susp s) -> ~ in_user_section c.
Proof.
  intros s c [ls [G R]]. apply (@exclusive TEsp). exists ls. split; [|exact R].
  clear R. revert G. generalize m_init. induction ls as [|l ls IH]; simpl; intros s0 G; [exact I|].
  destruct G as [G1 G2]. split; [now right|]. destruct (m_step TEsp s0 l); auto.
Qed.

Theorem C68_mask_restored_esp_partial :
  forall s, greach (m_step TEsp) poll_outside m_init s -> c_todo (m_cur s) = [] ->
  m_on s = false <-> in_user_section (m_cur s).
Proof.
  intros s [ls [G R]]. apply (@mask_exact TEsp). exists ls. split; [|exact R].
  clear R. revert G. generalize m_init. induction ls as [|l ls IH]; simpl; intros s0 G; [exact I|].
  destruct G as [G1 G2]. split; [now right|]. destruct (m_step TEsp s0 l); auto.
Qed.

(** ESP32, without that condition: a delay polled first in line inside a critical section switches interrupts back
    on, and the section is preempted by a handler that may enter a critical section of its own. *)
Theorem C68_section_preempted_esp_refuted :
  exists s c, reach (m_step TEsp) m_init s /\ In c (m_susp s) /\ in_user_section c /\ in_user_section (m_cur s).
Proof.
  pose (ls := [MUserLeave; MUserEnter; MPoll (Some (Some 1)); MOp; MOp; MOp; MOp; MOp; MOp; MPreempt; MUserEnter]).
  destruct (run (m_step TEsp) m_init ls) as [s|] eqn:E; [|vm_compute in E; discriminate].
  exists s, (mkCtx [] [(true, true)]). split; [exists ls; exact E|]. vm_compute in E. injection E as <-.
  split; [now left|]. split; exists true; now left.
Qed.

(** Likewise in [init]: a handler runs although [init] has not returned. *)
Theorem C68_init_preempted_esp_refuted :
  exists s, reach (m_step TEsp) m_init s /\ m_susp s = [m_cur m_init].
Proof.
  pose (ls := [MPoll (Some (Some 0)); MOp; MOp; MOp; MOp; MPreempt]).
  destruct (run (m_step TEsp) m_init ls) as [s|] eqn:E; [|vm_compute in E; discriminate].
  exists s. split; [exists ls; exact E|]. vm_compute in E. injection E as <-. reflexivity.
Qed.

(** Whatever the state, an ESP32 poll that becomes head leaves interrupts on. *)
Theorem C68_esp_poll_unmasks_refuted :
  forall s n, c_todo (m_cur s) = [] ->
  exists s', run (m_step TEsp) s (MPoll (Some (Some n)) :: repeat MOp (4 + 2 * n)) = Some s' /\
    m_on s' = true /\ c_open (m_cur s') = c_open (m_cur s) /\ c_todo (m_cur s') = [].
Proof.
  intros s n ET. simpl. rewrite ET. simpl.
  replace (n + (n + 0)) with (2 * n) by lia.
  assert (K : forall on o su, exists s', run (m_step TEsp) (mkM on (mkCtx (concat (repeat [MEnter; MLeave] n) ++ [MEnable]) o) su)
              (repeat MOp (S (2 * n))) = Some s' /\ m_on s' = true /\ c_open (m_cur s') = o /\ c_todo (m_cur s') = []).
  { clear. induction n as [|n IH]; intros on o su.
    - eexists. split; [reflexivity|]. auto.
    - replace (S (2 * S n)) with (S (S (S (2 * n)))) by lia. cbn [repeat concat List.app run m_step c_todo c_open m_cur m_susp enter m_on]. apply IH. }
  replace (repeat MOp (S (2 * n))) with (repeat MOp (2 * n) ++ [MOp]) in K.
  2: { clear. generalize (2 * n). intros m. induction m as [|m IH]; [reflexivity|]. simpl. f_equal. exact IH. }
  cbn [m_step c_todo c_open m_cur m_susp enter m_on].
  specialize (K false (c_open (m_cur s)) (m_susp s)).
  replace (repeat MOp (2 * n) ++ [MOp]) with (MOp :: repeat MOp (2 * n)) in K; [exact K|].
  clear. generalize (2 * n). intros m. induction m as [|m IH]; [reflexivity|]. simpl. f_equal. exact IH.
Qed.

Example C68_case :
  exists s c, reach (m_step TNvic) m_init s /\ m_susp s = [c] /\ c_todo c = [MEnter; MLeave] /\ in_user_section (m_cur s).
Proof.
  pose (ls := [MUserEnter; MPoll (Some (Some 3)); MOp; MOp; MUserLeave; MUserLeave; MPoll (Some (Some 2)); MPreempt; MUserEnter]).
  destruct (run (m_step TNvic) m_init ls) as [s|] eqn:E; [|vm_compute in E; discriminate].
  exists s, (mkCtx [MEnter; MLeave] []). split; [exists ls; exact E|]. vm_compute in E. injection E as <-.
  repeat split. exists true. now left.
Qed.
Example C68_esp_case :
  exists s, greach (m_step TEsp) poll_outside m_init s /\ m_on s = true /\ length (m_susp s) = 1.
Proof.
  exists (mkM true (mkCtx [] []) [mkCtx [] []]).
  split; [|split; reflexivity].
  exists [MUserLeave; MPoll (Some (Some 1)); MOp; MOp; MOp; MOp; MOp; MOp; MPreempt]. split; [|reflexivity].
  simpl. repeat split; auto; intros [b []].
Qed.

Print Assumptions C68_not_preempted_cortex.
Print Assumptions C68_mask_restored_cortex.
Print Assumptions C68_poll_proceeds_cortex.
Print Assumptions C68_not_preempted_esp_partial.
Print Assumptions C68_mask_restored_esp_partial.
Print Assumptions C68_section_preempted_esp_refuted.
Print Assumptions C68_init_preempted_esp_refuted.
Print Assumptions C68_esp_poll_unmasks_refuted.
