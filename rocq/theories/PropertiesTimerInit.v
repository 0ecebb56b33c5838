(** C92: starting a half-period timer.  [tinit] (TimerInitProofs): the peripheral as found, in any state: only what no register of
    it can change is assumed (which enable bits a chip has, the width).  [at_reset]: as after reset.  [served]: starting takes less
    than half a period, counted from when the counter is set; later every half-period interrupt is served before the next. *)
From Verif Require Import Base LTS TicksModel MonoModel MonoProofs TimerInitModel TimerInitProofs.
Open Scope Z_scope.
Set Implicit Arguments.

(** From when the interrupt is let in, on: both half-period interrupts are enabled, with the priority set; the counter runs with
    the full period, and [now] is the value it was set to plus the ticks since; no assertion of the handler ever fails. *)
Theorem C92_started_in_step_partial d s0 s : tinit d s0 -> (d = SilabsRtcc -> at_reset s0) -> greach (tstep d) (served d) s0 s ->
  r_panic s = false /\
  (r_unmasked s = true -> r_ops s = [] /\ r_prio s = true /\ r_full_ie s = true /\ r_half_ie s = true /\
     ticking s = true /\ r_set s = true /\ (r_t s < 2 ^ 64 -> calculate_now 64 (width d) (r_hp s) (r_cnt s) = Some (r_t s))).
Proof.
  intros I A R. destruct (treach_inv I A R) as [(f & _ & H & _ & _ & _ & _ & K & _ & Pn)|[]].
  - split; [exact Pn|]. rewrite <- (o_unm H), K. discriminate.
  - split; [exact (HI_panic u_inv)|]. intros _. unfold ticking. rewrite u_en, u_run. repeat (split; [auto|]). intros L. rewrite u_cnt.
    pose proof (width_pos d) as W. assert (T : 0 <= r_t s) by exact (HI_t u_inv). pose proof (HI_eq u_inv) as E. pose proof (HI_one u_inv) as O. pose proof (HI_hp u_inv) as P. unfold isr_view in *. cbn [h_t h_hp h_full h_half] in *.
    apply calculate_now_true; try lia. destruct (r_full s), (r_halff s); try lia.
Qed.
(** The handler never runs before [start] has come to its end. *)
Theorem C92_no_interrupt_while_starting d s0 s : tinit d s0 -> (d = SilabsRtcc -> at_reset s0) -> greach (tstep d) (served d) s0 s ->
  r_ops s <> [] -> tstep d s TEnter = None /\ tstep d s TIsr = None.
Proof.
  intros I A R O. destruct (treach_inv I A R) as [(f & _ & H & _ & _ & _ & _ & K & Pc & _)|[]]; [|contradiction].
  cbn [tstep]. rewrite <- (o_unm H), K. cbn [hps_step isr_view h_pc]. now rewrite Pc.
Qed.
(** Each half period in [on_interrupt]'s count: the flags say at any time which interrupt is outstanding. *)
Theorem C92_counts_half_periods d s0 s : tinit d s0 -> (d = SilabsRtcc -> at_reset s0) -> greach (tstep d) (served d) s0 s -> r_unmasked s = true ->
  r_hp s + (if r_full s then 1 else 0) + (if r_halff s then 1 else 0) = r_t s / 2 ^ (width d - 1) /\ (r_full s = true -> r_halff s = false).
Proof.
  intros I A R U. destruct (treach_inv I A R) as [(f & _ & H & _ & _ & _ & _ & K & _)|[]].
  - rewrite <- (o_unm H), K in U. discriminate.
  - split; [exact (HI_eq u_inv)|]. intros F. destruct (r_halff s) eqn:G; [|reflexivity]. exfalso. exact (HI_one u_inv F G).
Qed.

(** Started, [now] moves on by the ticks of the timer clock, one each, whatever the handler is doing. *)
Definition ticks_in (ls : list tlabel) : Z := Z.of_nat (length (filter (fun l => match l with TTick => true | _ => false end) ls)).
Definition timer_now (d : tdriver) (s : tm) : option Z := calculate_now 64 (width d) (r_hp s) (r_cnt s).
Lemma running_now d s : running d s -> r_t s < 2 ^ 64 -> timer_now d s = Some (r_t s).
Proof.
  intros [] L. unfold timer_now. rewrite u_cnt. pose proof (width_pos d) as W. assert (T : 0 <= r_t s) by exact (HI_t u_inv).
  pose proof (HI_eq u_inv) as E. pose proof (HI_one u_inv) as O. pose proof (HI_hp u_inv) as P. unfold isr_view in *. cbn [h_t h_hp h_full h_half] in *.
  apply calculate_now_true; try lia. destruct (r_full s), (r_halff s); try lia.
Qed.
Lemma running_run d ls : forall s s', running d s -> guarded (tstep d) (served d) s ls -> run (tstep d) s ls = Some s' ->
  running d s' /\ r_t s' = r_t s + ticks_in ls.
Proof.
  induction ls as [|l ls IH]; intros s s' R Gd Rn.
  - injection Rn as <-. split; [exact R|]. unfold ticks_in. simpl. lia.
  - cbn [guarded run] in Gd, Rn. destruct Gd as [G Gd]. destruct (tstep d s l) as [s1|] eqn:E; [|discriminate].
    destruct (IH s1 s' (@running_step d s l s1 R G E) Gd Rn) as [R' T]. split; [exact R'|]. rewrite T. unfold ticks_in. cbn [filter]. destruct R, l; cbn [tstep length] in *.
    + injection E as <-. unfold tick, ticking. rewrite u_en, u_run. cbn [andb r_t]. lia.
    + rewrite u_ops in E. discriminate.
    + destruct (r_unmasked s); [|discriminate]. destruct (hps_step _ _ _ HEnter); [|discriminate]. injection E as <-. reflexivity.
    + destruct (hps_step _ _ _ HStep); [|discriminate]. injection E as <-. reflexivity.
Qed.
Theorem C92_now_counts_ticks_partial d s0 s1 ls s2 : tinit d s0 -> (d = SilabsRtcc -> at_reset s0) -> greach (tstep d) (served d) s0 s1 ->
  r_unmasked s1 = true -> guarded (tstep d) (served d) s1 ls -> run (tstep d) s1 ls = Some s2 -> r_t s2 < 2 ^ 64 ->
  exists n, timer_now d s1 = Some n /\ timer_now d s2 = Some (n + ticks_in ls).
Proof.
  intros I A R U Gd Rn L. destruct (treach_inv I A R) as [(f & _ & H & _ & _ & _ & _ & K & _)|Ru].
  - rewrite <- (o_unm H), K in U. discriminate.
  - destruct (@running_run d ls s1 s2 Ru Gd Rn) as [R2 T]. assert (0 <= ticks_in ls) by (unfold ticks_in; lia).
    exists (r_t s1). split; [apply running_now; [exact Ru|lia]|]. rewrite <- T. now apply running_now.
Qed.

(** The counter of the RTCC and its flags are neither cleared nor set by [start]: with the half-period flag left over from before,
    time jumps ahead by a whole period. *)
Definition left_over : tm :=
  mkTm true true false 7 (max_of SilabsRtcc) 0 (half_of SilabsRtcc) false false false true 0 false false (start_code SilabsRtcc) INone (false, false) false 7 true.
Theorem C92_started_in_step_refuted : exists s0 s, tinit SilabsRtcc s0 /\ greach (tstep SilabsRtcc) (served SilabsRtcc) s0 s /\ r_unmasked s = true /\ r_pc s = INone /\
  r_cnt s = r_t s /\ calculate_now 64 32 (r_hp s) (r_cnt s) = Some (r_t s + 2 ^ 32).
Proof.
  exists left_over. destruct (run (tstep SilabsRtcc) left_over (repeat TStart 7 ++ [TEnter; TIsr; TIsr; TIsr])) as [s|] eqn:E; [|vm_compute in E; discriminate].
  exists s. split; [vm_compute; intuition congruence|]. split; [|vm_compute in E; injection E as <-; vm_compute; auto].
  exists (repeat TStart 7 ++ [TEnter; TIsr; TIsr; TIsr]). split; [|exact E]. vm_compute. tauto.
Qed.

(** Concrete case: a 16-bit STM32 timer left in disorder, started with ticks in between, and running past a half period and a
    full one with both interrupts served. *)
Definition disorder : tm :=
  mkTm true true false 777 12 5 9 true true true true 3 false false (start_code (Stm32 false)) INone (false, false) false 0 false.
Definition case_run : list tlabel :=
  [TStart; TTick; TStart; TStart; TStart; TTick; TStart; TStart; TStart; TStart; TStart; TStart; TStart; TTick; TTick; TStart; TTick; TStart] ++
  repeat TTick (Z.to_nat 32765) ++ [TEnter; TTick; TIsr; TIsr; TIsr] ++ repeat TTick (Z.to_nat 32768) ++ [TEnter; TIsr; TIsr; TIsr].
Definition servedb (d : tdriver) (s : tm) (l : tlabel) : bool :=
  match l with
  | TTick => negb (ticking s) || negb (r_set s) ||
      match r_ops s with [] => negb ((r_t s + 1) mod 2 ^ (width d - 1) =? 0) || (negb (r_full s) && negb (r_halff s)) | _ => r_t s + 1 <? 2 ^ (width d - 1) end
  | _ => true
  end.
Fixpoint srun (d : tdriver) (s : tm) (ls : list tlabel) : option tm :=
  match ls with
  | [] => Some s
  | l :: ls => if servedb d s l then match tstep d s l with Some s' => srun d s' ls | None => None end else None
  end.
Lemma servedb_served d s l : servedb d s l = true -> served d s l.
Proof.
  destruct l; cbn [served servedb]; auto. intros B K S. rewrite K, S in B. cbn [negb orb] in B. destruct (r_ops s) as [|o os].
  - split; [congruence|]. intros _ M. rewrite M, Z.eqb_refl in B. cbn [negb orb] in B. apply andb_true_iff in B as [F H].
    now destruct (r_full s), (r_halff s).
  - split; [intros _; now apply Z.ltb_lt|discriminate].
Qed.
Lemma srun_greach d s ls s' : srun d s ls = Some s' -> greach (tstep d) (served d) s s'.
Proof.
  intros E. exists ls. revert s E. induction ls as [|l ls IH]; cbn [srun]; intros s E; [split; [exact I|exact E]|].
  destruct (servedb d s l) eqn:B; [|discriminate]. destruct (tstep d s l) as [s1|] eqn:T; [|discriminate].
  destruct (IH _ E) as [Gd Rn]. cbn [guarded run]. rewrite T. split; [split; [now apply servedb_served|exact Gd]|exact Rn].
Qed.
Definition case_end (s : tm) : bool :=
  r_unmasked s && (r_t s =? 65538) && (r_cnt s =? 2) && (r_hp s =? 2) && negb (r_full s) && negb (r_halff s).
Lemma case_runs : match srun (Stm32 false) disorder case_run with Some s => case_end s | None => false end = true.
Proof. vm_compute. reflexivity. Qed.
Example C92_case : tinit (Stm32 false) disorder /\ exists s, greach (tstep (Stm32 false)) (served (Stm32 false)) disorder s /\
  r_unmasked s = true /\ r_t s = 65538 /\ r_cnt s = 2 /\ r_hp s = 2 /\ r_full s = false /\ r_halff s = false.
Proof.
  split; [vm_compute; intuition congruence|]. pose proof case_runs as C.
  destruct (srun (Stm32 false) disorder case_run) as [s|] eqn:E; [|discriminate].
  exists s. split; [now apply srun_greach in E|]. clear E. unfold case_end in C. rewrite !andb_true_iff, !negb_true_iff, !Z.eqb_eq in C. tauto.
Qed.
Print Assumptions C92_started_in_step_partial.
Print Assumptions C92_now_counts_ticks_partial.
Print Assumptions C92_no_interrupt_while_starting.
Print Assumptions C92_counts_half_periods.
Print Assumptions C92_started_in_step_refuted.
Print Assumptions C92_case.
