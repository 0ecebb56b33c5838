(** C66: tasks disabled by [#[cfg]]. *)
From Verif Require Import Base LTS AppModel AppSpec AppProofs AppAnalysis AppChecks AppFinal AppRun AppStart AppStartProofs AppAcceptSpec AppAcceptChecks AppCfg LockModel LockSpec LockBackends PropertiesLock PropertiesApp PropertiesAccept.
Set Implicit Arguments.
Open Scope string_scope.
Open Scope list_scope.

(** * C66 *)
Section Cfg.
Context (b : bkind) (disp : list ident) (items : list item) (x : expansion) (Hx : expand b disp items = Some x).
Context (on : ident -> bool).

(** An accepted application is still accepted when the disabled tasks are not written. *)
Theorem C66_accepted_without_disabled_tasks : how_many is_shared items = 1 -> how_many is_local items = 1 -> (b = Esp32c6 -> length (flat_map bound items) <= 8) ->
  exists x', expand b disp (keep on items) = Some x'.
Proof.
  intros S L C. destruct (proj1 (@C59_accepted_iff_rules b disp items S L C) (ex_intro _ x Hx)) as (M & R & T).
  apply C59_accepted_iff_rules.
  - rewrite how_many_keep; [exact S|reflexivity].
  - rewrite how_many_keep; [exact L|reflexivity].
  - intros E. specialize (C E). pose proof (bound_keep on items). lia.
  - split; [now apply module_keep|]. split; [now apply resources_keep|now apply target_keep].
Qed.

(** Every enabled task above priority 0 is run by exactly one handler of the binary, of its priority; handlers run enabled tasks only. *)
Theorem C66_enabled_tasks_run n k p sh lo : src_task items n k p sh lo -> on n = true -> 1 <= p ->
  exists v, In v (compiled_vectors on x) /\ In n (snd v) /\ snd (fst v) = p /\ forall v', In v' (compiled_vectors on x) -> In n (snd v') -> v' = v.
Proof.
  intros T C Hp. destruct (@expand_accepted _ _ _ _ Hx) as [a H]. destruct (vec_exists H T Hp) as ([[d q] ts] & V & N & E). simpl in *. subst q.
  exists (d, p, filter on ts). split; [apply (@compiled_from x on (d, p, ts) V); eauto|]. split; [apply filter_In; auto|]. split; [reflexivity|].
  intros v' V' N'. destruct (compiled_vec _ _ _ V') as (ts' & V2 & E). rewrite E in N'. apply filter_In in N' as [N' _].
  pose proof (@vec_unique _ _ _ _ _ H _ _ _ V V2 N N') as [= E1 <-]. destruct v' as [[d' p'] l']. simpl in *. injection E1 as <- <-. now subst l'.
Qed.
Theorem C66_only_enabled_tasks_run v n : In v (compiled_vectors on x) -> In n (snd v) ->
  on n = true /\ exists k sh lo, src_task items n k (snd (fst v)) sh lo.
Proof.
  destruct (@expand_accepted _ _ _ _ Hx) as [a H]. intros V N. destruct (compiled_vec _ _ _ V) as (ts & V2 & E). rewrite E in N. apply filter_In in N as [N C].
  split; [exact C|]. destruct (@vec_runs _ _ _ _ _ H _ _ V2 N) as (k & sh & lo & T & _). eauto.
Qed.

(** Thread mode runs exactly [idle] and the enabled software tasks of priority 0. *)
Theorem C66_thread_mode n : In n (compiled_thread on x) <-> exists k sh lo, src_task items n k 0 sh lo /\ (k = KIdle \/ on n = true).
Proof.
  destruct (@expand_accepted _ _ _ _ Hx) as [a H]. unfold compiled_thread. rewrite (acc_idle H). split.
  - destruct (ap_idle a) as [[m ar]|] eqn:Ei.
    + intros [<- |[]]. assert (T : is_task a m KIdle 0 ar) by now apply T_idle. destruct ar as [sh lo]. apply (pd_task (ac_parsed H)) in T. exists KIdle, sh, lo. auto.
    + intros I. apply filter_In in I as [I C]. apply (chan_in H) in I as (sh & lo & T). eauto 6.
  - intros (k & sh & lo & T & C). pose proof (proj1 (@C11_priority_zero_in_thread _ _ _ _ Hx n k sh lo T)) as I. unfold thread_tasks in I. rewrite (acc_idle H) in I.
    destruct (ap_idle a) as [[m ar]|] eqn:Ei; [exact I|]. apply filter_In. split; [exact I|]. destruct C as [-> |C]; [|exact C].
    apply (chan_in H) in I as (sh' & lo' & T'). destruct (src_unique H T T') as (E & _). discriminate.
Qed.

(** The ceiling in the generated lock is at least the one computed without the disabled tasks. *)
Theorem C66_ceilings_do_not_fall x' r : expand b disp (keep on items) = Some x' -> no_clash items r -> (exists n p ac, uses_shared (keep on items) n p r ac) ->
  ceiling x' r <= ceiling x r.
Proof.
  intros Hx' N U. destruct (@expand_accepted _ _ _ _ Hx) as [a H]. destruct (@expand_accepted _ _ _ _ Hx') as [a' H'].
  assert (N' : no_clash (keep on items) r) by (intros n p V; apply uses_local_keep in V; exact (N n p V)).
  destruct (@ceiling_no_clash _ _ _ _ _ H' r N' U) as [(n & ac & U1) _]. apply uses_shared_keep in U1.
  destruct (@ceiling_no_clash _ _ _ _ _ H r N) as [_ M]; [eauto|]. eauto.
Qed.

(** Start-up configures no interrupt without a handler, except those bound to disabled tasks. *)
Theorem C66_configured_interrupts_have_handlers_partial s i p : sreach b x s -> In (i, p) (t_prio s) ->
  (exists ts, In (i, p, ts) (compiled_vectors on x)) \/ (exists n sh lo, src_task items n (KHard i) p sh lo /\ on n = false).
Proof.
  intros R I. destruct (@expand_accepted _ _ _ _ Hx) as [a H]. destruct (sreach_inv H R) as [d J]. apply (si_prio J) in I as [k I].
  assert (Q : In (SConfigure i p k) (main_code b x)) by (rewrite (si_code J); apply in_app_iff; auto). rewrite (main_split b x) in Q. apply in_app_iff in Q as [Q|[Q|[Q|[]]]]; try discriminate.
  apply (in_before H) in Q as [Q|[(i' & q' & k' & [= <- <- <-] & Q)|[Q|[(n & r & Q & _)|(n & r & Q & _)]]]]; try discriminate.
  assert (Q2 : In (i, p) (configured b (x_app x) (x_ints x))) by (apply configured_route; eauto). apply (configured_vec H) in Q2 as [ts V].
  apply (vec_in H) in V as [(n & i' & p' & sh & lo & T & [= <- <- ->])|(p' & d' & V & [= <- <- ->])].
  - destruct (on n) eqn:C; [left|right; eauto]. exists [n]. assert (V : In (i, p, [n]) (vectors x)) by (apply (vec_in H); left; exists n, i, p, sh, lo; auto).
    pose proof (@compiled_from x on (i, p, [n]) V) as G. simpl in G. rewrite C in G. apply G. eauto.
  - left. exists (filter on (chan x p)). now apply compiled_disp.
Qed.
End Cfg.

(** Locks of the compiled application exclude, on the BASEPRI machine. *)
Theorem C66_compiled_mutual_exclusion bits disp items x on (Hx : expand (Cortex bits) disp items = Some x) (Hbits : 1 <= bits <= 7)
  (Hclash : forall r s, shared_field items r s -> sr_lock_free s = false -> no_clash items r)
  (s : mach (bp bits (lapp_cfg on x))) : bp_reach s -> mutual_exclusion (lapp_cfg on x) s.
Proof.
  destruct (@expand_accepted _ _ _ _ Hx) as [a H].
  exact (C01_basepri_mutual_exclusion Hbits (cfg_ok H on (top_cortex H) Hclash) (s := s)).
Qed.

(** The interrupt of a disabled hardware task is configured and switched on although no handler is left in the binary for it. *)
Definition cfg_items : list item := base [] [] ++ [hw "uart" "UART0" 2 [] None; hw "adc" "ADC0" 1 [] None].
Definition cfg_on (n : ident) : bool := negb (ieq n "adc").
Theorem C66_disabled_task_interrupt_enabled_refuted : exists x s, expand (Cortex 3) [] cfg_items = Some x /\ sreach (Cortex 3) x s /\ t_pc s = [SThread] /\
  sstep x s (TIrq "ADC0") = Some s /\ In ("ADC0", 1) (t_prio s) /\ (forall v, In v (compiled_vectors cfg_on x) -> fst (fst v) <> "ADC0") /\
  exists x', expand (Cortex 3) [] (keep cfg_on cfg_items) = Some x' /\ ~ In ("ADC0", 1) (to_configure (x_app x') (x_ints x')).
Proof.
  destruct (expand (Cortex 3) [] cfg_items) as [x|] eqn:Ex; [|vm_compute in Ex; discriminate].
  destruct (run (sstep x) (s_init (Cortex 3) x true) (repeat TMain (length (main_code (Cortex 3) x) - 1))) as [s|] eqn:E.
  2:{ vm_compute in Ex. injection Ex as <-. vm_compute in E. discriminate. }
  exists x, s. split; [reflexivity|]. split; [exists true; eexists; exact E|]. vm_compute in Ex. injection Ex as <-. vm_compute in E. injection E as <-.
  split; [reflexivity|]. split; [reflexivity|]. split; [simpl; auto|]. split.
  - intros v V. vm_compute in V. destruct V as [<- |[]]. discriminate.
  - destruct (expand (Cortex 3) [] (keep cfg_on cfg_items)) as [x'|] eqn:Ex'; vm_compute in Ex'; [|discriminate]. injection Ex' as <-. eexists. split; [reflexivity|]. simpl. intuition discriminate.
Qed.

(** Two alternatives for one interrupt, exactly one of which is ever enabled: each alone is accepted, both together are refused. *)
Theorem C66_alternatives_refused_refuted : exists items,
  (forall on, on "fast" = negb (on "slow") -> exists x, expand (Cortex 3) [] (keep on items) = Some x) /\ expand (Cortex 3) [] items = None.
Proof.
  exists (base [] [] ++ [hw "fast" "UART0" 3 [] None; hw "slow" "UART0" 1 [] None]). split; [|vm_compute; reflexivity].
  intros on E. unfold keep, base, hw. cbn [filter List.app]. rewrite E. destruct (on "slow"); simpl negb; vm_compute; eauto.
Qed.

(** The example application without [uart]. *)
Definition ex_on (n : ident) : bool := negb (ieq n "uart").
Example C66_case : compiled_vectors ex_on ex_x = filter (fun v => negb (mem "uart" (snd v))) (vectors ex_x) /\ length (compiled_vectors ex_on ex_x) = 3.
Proof. vm_compute. auto. Qed.
Print Assumptions C66_accepted_without_disabled_tasks.
Print Assumptions C66_enabled_tasks_run.
Print Assumptions C66_only_enabled_tasks_run.
Print Assumptions C66_thread_mode.
Print Assumptions C66_ceilings_do_not_fall.
Print Assumptions C66_configured_interrupts_have_handlers_partial.
Print Assumptions C66_compiled_mutual_exclusion.
Print Assumptions C66_disabled_task_interrupt_enabled_refuted.
Print Assumptions C66_alternatives_refused_refuted.
