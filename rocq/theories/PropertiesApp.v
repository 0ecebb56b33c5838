(** C07-C12, C48, C53, C54: the [#[rtic::app]] macro and the applications it accepts. *)
From Coq Require Import Permutation.
From Verif Require Import Base LTS AppModel AppSpec AppProofs AppAnalysis AppChecks AppFinal AppRun AppStart AppStartProofs.
From Verif Require Import LockModel LockSpec LockBackends PropertiesLock.
Set Implicit Arguments.
Open Scope string_scope.
Open Scope list_scope.

(** Example applications. *)
Definition hw n i p sh lo : item := ITask n (mkRaw (Some i) (Some p) (Some sh) lo None []).
Definition sw n p sh lo inputs : item := ITask n (mkRaw None (Some p) (Some sh) lo None inputs).
Definition base sh lo : list item := [IShared "Shared" sh; ILocal "Local" lo; IInit "init" None "Shared" "Local"].
(** Resource [cnt] (type 1) for idle, a hardware and a software task; [raw] (type 2) lock-free for two hardware tasks
    of priority 2; [cfg] (type 3) by shared reference for two tasks; local [buf] (type 4) for [uart]; [log] takes an argument of
    type 5. *)
Definition ex_items : list item :=
  base [("cnt", mkSR 1 false); ("raw", mkSR 2 true); ("cfg", mkSR 3 false)] [("buf", 4)] ++
  [IIdle "idle" (Some [("cnt", Exclusive)]) None;
   hw "uart" "UART0" 2 [("cnt", Exclusive); ("raw", Exclusive); ("cfg", SharedRef)] (Some [("buf", External)]);
   hw "spi" "SPI0" 2 [("raw", Exclusive)] None;
   sw "work" 1 [("cnt", Exclusive); ("cfg", SharedRef)] (Some [("state", Declared)]) [];
   sw "log" 3 [] None [5]].
Definition ex_disp : list ident := ["SSI0"; "QEI0"; "CAN0"].
Definition ex_x : expansion := match expand (Cortex 3) ex_disp ex_items with Some x => x | None => mkX (mkApp [] ("", []) None [] [] [] []) (mkAna [] [] [] [] [] []) [] end.
Lemma ex_accepted : expand (Cortex 3) ex_disp ex_items = Some ex_x.
Proof. vm_compute. reflexivity. Qed.
(** A resource [r] used by tasks of priorities 1 and 2, and a local resource [r] of the task of priority 1. *)
Definition clash_items : list item :=
  base [("r", mkSR 1 false)] [("r", 4)] ++
  [hw "lo" "UART0" 1 [("r", Exclusive)] (Some [("r", External)]); hw "hi" "UART1" 2 [("r", Exclusive)] None].
Definition clash_x : expansion := match expand (Cortex 3) [] clash_items with Some x => x | None => ex_x end.
Lemma clash_accepted : expand (Cortex 3) [] clash_items = Some clash_x.
Proof. vm_compute. reflexivity. Qed.
Ltac in_tac := simpl; repeat (first [left; reflexivity | right]).
Ltac no_clash_tac := intros n p (k & sh & lo & T & I); destruct T as [n sh lo T|n r b T E|n r T E]; simpl in T;
  repeat (destruct T as [T|T]; [try discriminate; injection T; intros; subst; simpl in *; intuition discriminate|]); destruct T.

Section Accepted.
Context (b : bkind) (disp : list ident) (items : list item) (x : expansion) (Hx : expand b disp items = Some x).

(** * C07 *)
(** The ceiling passed to [lock] for a shared resource is the highest priority of the tasks listing it, unless some
    task uses a [#[local]] field of the same name. *)
Theorem C07_ceiling_is_highest_partial r : no_clash items r -> (exists n p ac, uses_shared items n p r ac) -> highest items r (ceiling x r).
Proof. destruct (@expand_accepted _ _ _ _ Hx) as [a H]. apply (ceiling_no_clash H). Qed.
(** In that case, it is the priority of that task instead. *)
Theorem C07_ceiling_of_clash r n p : uses_local items n p r -> ceiling x r = p.
Proof. destruct (@expand_accepted _ _ _ _ Hx) as [a H]. apply (ceiling_clash H). Qed.
(** * C08 *)
Theorem C08_lock_free_one_priority r s : shared_field items r s -> sr_lock_free s = true ->
  (forall n k p sh lo ac, src_task items n k p sh lo -> In (r, ac) sh -> k <> KSoft) /\
  (forall n p ac n' p' ac', uses_shared items n p r ac -> uses_shared items n' p' r ac' -> p = p').
Proof. destruct (@expand_accepted _ _ _ _ Hx) as [a H]. apply (lock_free_ok H). Qed.
(** * C09 *)
Theorem C09_local_at_most_one_task r n p n' p' : uses_local items n p r -> uses_local items n' p' r -> n = n'.
Proof. destruct (@expand_accepted _ _ _ _ Hx) as [a H]. intros U U'. now destruct (local_one H U U'). Qed.
(** [init] uses none of them, and none is also declared in a task. *)
Theorem C09_local_not_in_init r t : local_field items r t ->
  (forall n lo ss ls d, In (IInit n lo ss ls) items -> ~ In (r, d) (opt_list lo)) /\ forall n, ~ declares items n r.
Proof.
  destruct (@expand_accepted _ _ _ _ Hx) as [a H]. intros F. split; [|intros n; now apply (local_not_declared H F)].
  intros n lo ss ls d I J. destruct d.
  - apply (pd_init_only (ac_parsed H)) in I as [_ E]. rewrite E in J. apply (wf_init (pd_wf (ac_parsed H))) in J. discriminate.
  - apply (local_not_declared H F (n := n)). right. exists lo, ss, ls. auto.
Qed.
(** * C10 *)
Theorem C10_send_partial T : (forall r s, shared_field items r s -> sr_ty s = T -> no_clash items r) -> crosses items (can_spawn (x_app x)) T -> In T (y_send (x_ana x)).
Proof. destruct (@expand_accepted _ _ _ _ Hx) as [a H]. apply (crosses_send H). Qed.
(** Local resources and arguments are covered without that condition. *)
Theorem C10_sync T : ref_shared items T -> In T (y_sync (x_ana x)).
Proof. destruct (@expand_accepted _ _ _ _ Hx) as [a H]. apply (sync_ok H). Qed.
(** * C11 *)
(** Each priority above 0 that a software task has gets one dispatcher interrupt, and only these do; different priorities get
    different interrupts. *)
Theorem C11_dispatcher_per_priority p : (exists d, In (p, d) (x_ints x)) <-> 0 < p /\ exists n sh lo, src_task items n KSoft p sh lo.
Proof. destruct (@expand_accepted _ _ _ _ Hx) as [a H]. apply (ints_prio H). Qed.
Theorem C11_dispatcher_unique p d p' d' : In (p, d) (x_ints x) -> In (p', d') (x_ints x) -> (p = p' <-> d = d').
Proof. destruct (@expand_accepted _ _ _ _ Hx) as [a H]. intros I I'. split; [intros ->; eapply (ints_fun H); eauto|intros ->; eapply (ints_inj H); eauto]. Qed.
(** It is one of the declared ones (SLIC: generated ones), which no hardware task is bound to. *)
Theorem C11_dispatcher_declared p d : b <> Slic -> In (p, d) (x_ints x) -> In d disp /\ forall n q sh lo, ~ src_task items n (KHard d) q sh lo.
Proof.
  destruct (@expand_accepted _ _ _ _ Hx) as [a H]. intros Hb I. assert (D : In d (ap_disp (x_app x))) by (apply (ints_ok H); apply in_map_iff; now exists (p, d)). split.
  - assert (E : ap_disp (x_app x) = ap_disp a) by (pose proof (ac_pre H) as E; unfold preprocess in E; destruct b; try (now injection E as ->); congruence). rewrite E, (pd_disp (ac_parsed H)) in D. exact D.
  - intros n q sh lo T. apply (hw_not_disp (a := a) H) in T; [contradiction|]. intros ?. contradiction.
Qed.
(** No dispatcher is a core exception (Cortex-M) or anything but the four software interrupts (ESP32), and no hardware task is bound to the exceptions that
    cannot be masked. *)
Theorem C11_dispatchers_are_interrupts p d bits : b = Cortex bits -> In (p, d) (x_ints x) ->
  ~ In d ["NonMaskableInt"; "HardFault"; "MemoryManagement"; "BusFault"; "UsageFault"; "SecureFault"; "SVCall"; "DebugMonitor"; "PendSV"; "SysTick"]%string.
Proof.
  destruct (@expand_accepted _ _ _ _ Hx) as [a H]. intros -> I J. assert (D : In d (ap_disp (x_app x))) by (apply (ints_ok H); apply in_map_iff; now exists (p, d)).
  pose proof (ac_arch H) as A. cbn [arch_check] in A. rewrite !andb_true_iff in A. destruct A as ((A & _) & _). apply negb_true_iff in A.
  assert (existsb (fun d => mem d exceptions) (ap_disp (x_app x)) = true); [|congruence]. apply existsb_exists. exists d. split; [exact D|]. apply mem_in. exact J.
Qed.
Theorem C11_hardware_tasks_maskable bits n d p sh lo : b = Cortex bits -> src_task items n (KHard d) p sh lo -> d <> "NonMaskableInt"%string /\ d <> "HardFault"%string.
Proof.
  destruct (@expand_accepted _ _ _ _ Hx) as [a H]. intros -> T. apply (pd_task (ac_parsed H)) in T. inversion T as [|? t G|]; subst.
  pose proof (ac_arch H) as A. cbn [arch_check] in A. rewrite !andb_true_iff in A. destruct A as (_ & A). rewrite forallb_forall in A. rewrite (acc_hw H) in A. apply A in G. cbn [snd] in G. apply negb_true_iff in G.
  split; intros E; rewrite E in G; discriminate.
Qed.
(** Hardware tasks are treated as handlers of exceptions (a priority in SCB, no bit in NVIC) exactly if they are bound to a core exception. *)
Theorem C11_exception_handlers bits n d p sh lo : b = Cortex bits -> src_task items n (KHard d) p sh lo ->
  (is_exception d = true <-> In d ["NonMaskableInt"; "HardFault"; "MemoryManagement"; "BusFault"; "UsageFault"; "SecureFault"; "SVCall"; "DebugMonitor"; "PendSV"; "SysTick"]%string).
Proof.
  intros E T. destruct (C11_hardware_tasks_maskable E T) as [N N']. unfold is_exception. rewrite mem_in. simpl. intuition congruence.
Qed.
Theorem C11_esp_dispatchers p d : b = Esp32c3 \/ b = Esp32c6 -> In (p, d) (x_ints x) -> In d ["FROM_CPU_INTR0"; "FROM_CPU_INTR1"; "FROM_CPU_INTR2"; "FROM_CPU_INTR3"]%string.
Proof.
  destruct (@expand_accepted _ _ _ _ Hx) as [a H]. intros Hb I. assert (D : In d (ap_disp (x_app x))) by (apply (ints_ok H); apply in_map_iff; now exists (p, d)).
  pose proof (ac_arch H) as A. apply mem_in. destruct Hb as [-> | ->]; cbn [arch_check] in A; rewrite andb_true_iff in A; destruct A as (A & _); rewrite forallb_forall in A; exact (A d D).
Qed.
(** The handlers: no two for the same interrupt; each task above priority 0 is run by exactly one, which runs at the priority of
    the task and runs only tasks of that priority. *)
Theorem C11_handlers_distinct : b <> Slic -> NoDup (map (fun v => fst (fst v)) (vectors x)).
Proof. destruct (@expand_accepted _ _ _ _ Hx) as [a H]. intros Hb. apply (vectors_NoDup (a := a) H). intros ?. contradiction. Qed.
Theorem C11_one_handler_per_task n k p sh lo : src_task items n k p sh lo -> 1 <= p ->
  exists i ts, In (i, p, ts) (vectors x) /\ In n ts /\ (forall v, In v (vectors x) -> In n (snd v) -> v = (i, p, ts)) /\
    forall m, In m ts -> exists k' sh' lo', src_task items m k' p sh' lo'.
Proof.
  destruct (@expand_accepted _ _ _ _ Hx) as [a H]. intros T Hp. destruct (vec_exists H T Hp) as ([[i q] ts] & I & J & E). simpl in *. subst q. exists i, ts. split; [auto|]. split; [auto|]. split.
  - intros v V M. exact (vec_unique H _ _ _ V I M J).
  - intros m M. destruct (@vec_runs _ _ _ _ _ H _ _ I M) as (k' & sh' & lo' & T' & _). simpl in T'. eauto.
Qed.
Theorem C11_priority_zero_in_thread n k sh lo : src_task items n k 0 sh lo -> In n (thread_tasks x) /\ forall v, In v (vectors x) -> ~ In n (snd v).
Proof.
  destruct (@expand_accepted _ _ _ _ Hx) as [a H]. intros T. split.
  - unfold thread_tasks. rewrite (acc_idle H). assert (T' := T). apply (pd_task (ac_parsed H)) in T'. remember 0 as z eqn:Ez in T'. destruct T' as [n ar G|n t G|n t G].
    + rewrite G. now left.
    + exfalso. assert (1 <= hw_prio t); [|lia]. apply (proj2 (wf_prio (pd_wf (ac_parsed H)) (T_hw _ _ _ G)) _ eq_refl).
    + destruct (ap_idle a) as [[m ar]|] eqn:Ei; [|apply (chan_in H); eauto]. exfalso. pose proof (ac_zero H) as Z. unfold zero_error in Z. rewrite Ei in Z.
      assert (X : existsb (fun t : ident * swtask => (sw_prio (snd t) =? 0)%nat && true) (ap_sw a) = true); [|congruence]. apply existsb_exists. exists (n, t). split; [auto|]. simpl. rewrite Ez. reflexivity.
  - intros v V M. pose proof (vec_prio H _ V). destruct (@vec_runs _ _ _ _ _ H _ _ V M) as (k' & sh' & lo' & T' & _). destruct (src_unique H T T') as (_ & E & _). lia.
Qed.
End Accepted.
(** Too few dispatchers: rejected. *)
Theorem C11_too_few_rejected b disp items prios : b <> Slic -> NoDup prios -> (forall p, In p prios -> 0 < p /\ exists n sh lo, src_task items n KSoft p sh lo) ->
  length disp < length prios -> expand b disp items = None.
Proof.
  intros Hb N Hp L. destruct (expand b disp items) as [x|] eqn:Hx; [exfalso|reflexivity]. destruct (@expand_accepted _ _ _ _ Hx) as [a H]. destruct (ints_ok H) as (E & N' & D).
  assert (I : incl prios (map fst (x_ints x))). { intros p Ip. apply Hp in Ip. apply (ints_prio H) in Ip as [d Id]. apply in_map_iff. now exists (p, d). }
  assert (J : incl (map snd (x_ints x)) disp). { intros d Id. apply in_map_iff in Id as ((p, d') & <- & Id). exact (proj1 (@C11_dispatcher_declared b disp items x Hx p d' Hb Id)). }
  pose proof (NoDup_incl_length N I). pose proof (NoDup_incl_length N' J). rewrite !map_length in *. lia.
Qed.

(** * Continued: C07 *)
(** The order of the items does not matter. *)
Theorem C07_order_independent b disp items x b' disp' items' x' r : expand b disp items = Some x -> expand b' disp' items' = Some x' -> Permutation items items' ->
  no_clash items r -> ceiling x r = ceiling x' r.
Proof.
  intros E E' Hp N. assert (U : forall n p ac, uses_shared items n p r ac <-> uses_shared items' n p r ac).
  { assert (G : forall l l', Permutation l l' -> forall n p ac, uses_shared l n p r ac -> uses_shared l' n p r ac).
    { intros l l' Hl n p ac (k & sh & lo & T & I). exists k, sh, lo. split; [|auto]. destruct T; [apply S_idle|apply S_hard|apply S_soft]; auto; eapply Permutation_in; eauto. }
    split; apply G; auto using Permutation_sym. }
  assert (N' : no_clash items' r). { intros n p (k & sh & lo & T & I). apply (N n p). exists k, sh, lo. split; [|auto]. apply Permutation_sym in Hp. destruct T; [apply S_idle|apply S_hard|apply S_soft]; auto; eapply Permutation_in; eauto. }
  destruct (@expand_accepted _ _ _ _ E) as [a H]. destruct (@expand_accepted _ _ _ _ E') as [a' H'].
  destruct (in_dec string_dec r (map (fun u => snd (fst u)) (accesses a))) as [M|M].
  - assert (V : exists n p ac, uses_shared items n p r ac). { apply in_map_iff in M as ([[p y] ac] & Ey & M). simpl in Ey. subst y. apply in_accesses in M as (n & k & ar & T & I). exists n, p, ac. apply (uses_shared_iff H). eauto. }
    destruct (ceiling_no_clash H N V) as [(n & ac & U1) L]. destruct (@ceiling_no_clash _ _ _ _ _ H' r N') as [(n' & ac' & U1') L']. { destruct V as (m & p & c & V). exists m, p, c. now apply U. }
    apply Nat.le_antisymm; [apply (L' n _ ac); now apply U|apply (L n' _ ac'); now apply U].
  - assert (Z : forall n p ac, ~ uses_shared items n p r ac). { intros n p ac V. apply M. apply (uses_shared_iff H) in V as (k & ar & T & I). apply in_map_iff. exists (p, r, ac). split; [reflexivity|]. apply in_accesses. eauto. }
    rewrite (ceiling_unused H N Z). symmetry. apply (ceiling_unused H' N'). intros n p ac V. apply (Z n p ac). now apply U.
Qed.
Example C07_case : exists x, expand (Cortex 3) ex_disp ex_items = Some x /\ no_clash ex_items "cnt" /\
  uses_shared ex_items "uart" 2 "cnt" Exclusive /\ uses_shared ex_items "idle" 0 "cnt" Exclusive /\ uses_shared ex_items "work" 1 "cnt" Exclusive /\ ceiling x "cnt" = 2.
Proof.
  exists ex_x. split; [exact ex_accepted|]. split; [no_clash_tac|]. repeat split.
  - do 3 eexists. split; [eapply S_hard with (r := mkRaw _ (Some 2) (Some _) _ _ _); [in_tac|reflexivity]|in_tac].
  - do 3 eexists. split; [eapply S_idle; in_tac|in_tac].
  - do 3 eexists. split; [eapply S_soft with (r := mkRaw _ (Some 1) (Some _) _ _ _); [in_tac|reflexivity]|in_tac].
Qed.
(** An accepted application in which the ceiling is not the highest priority: a resource shared by tasks of priorities 1 and 2,
    and a local resource of the same name. *)
Theorem C07_ceiling_refuted : exists items x r n ac, expand (Cortex 3) [] items = Some x /\ uses_shared items n 2 r ac /\ ceiling x r = 1.
Proof.
  exists clash_items, clash_x, "r", "hi", Exclusive. split; [exact clash_accepted|]. split; [|reflexivity].
  do 3 eexists. split; [eapply S_hard with (r := mkRaw _ (Some 2) (Some _) _ _ _); [in_tac|reflexivity]|in_tac].
Qed.

Example C08_case : exists s, shared_field ex_items "raw" s /\ sr_lock_free s = true /\
  uses_shared ex_items "uart" 2 "raw" Exclusive /\ uses_shared ex_items "spi" 2 "raw" Exclusive.
Proof.
  exists (mkSR 2 true). split; [do 2 eexists; split; in_tac|]. split; [reflexivity|]. split.
  - do 3 eexists. split; [eapply S_hard with (r := mkRaw _ (Some 2) (Some _) _ _ _); [in_tac|reflexivity]|in_tac].
  - do 3 eexists. split; [eapply S_hard with (r := mkRaw _ (Some 2) (Some _) _ _ _); [in_tac|reflexivity]|in_tac].
Qed.
(** Rejected: a lock-free resource at two priorities, or in a software task. *)
Example C08_rejected :
  expand (Cortex 3) [] (base [("raw", mkSR 2 true)] [] ++ [hw "a" "A" 1 [("raw", Exclusive)] None; hw "b" "B" 2 [("raw", Exclusive)] None]) = None /\
  expand (Cortex 3) ["A"] (base [("raw", mkSR 2 true)] [] ++ [sw "a" 1 [("raw", Exclusive)] None []]) = None /\
  expand (Cortex 3) [] (base [("raw", mkSR 2 true)] [] ++ [hw "a" "A" 1 [("raw", Exclusive)] None; hw "b" "B" 1 [("raw", Exclusive)] None]) <> None.
Proof. vm_compute. repeat split; discriminate. Qed.
Example C09_case : uses_local ex_items "uart" 2 "buf" /\ local_field ex_items "buf" 4 /\
  expand (Cortex 3) [] (base [] [("l", 1)] ++ [hw "a" "A" 1 [] (Some [("l", External)]); hw "b" "B" 1 [] (Some [("l", External)])]) = None.
Proof.
  split; [|split; [do 2 eexists; split; in_tac|reflexivity]].
  do 3 eexists. split; [eapply S_hard with (r := mkRaw _ (Some 2) _ (Some _) _ _); [in_tac|reflexivity]|in_tac].
Qed.
Example C10_case : crosses ex_items (can_spawn (x_app ex_x)) 1 /\ crosses ex_items (can_spawn (x_app ex_x)) 4 /\ crosses ex_items (can_spawn (x_app ex_x)) 5 /\ ref_shared ex_items 3 /\
  y_send (x_ana ex_x) = [1; 2; 3; 4; 5] /\ y_sync (x_ana ex_x) = [3].
Proof.
  split; [|split; [|split; [|split]]].
  - eapply X_init with (x := "cnt") (r := mkSR 1 false) (n := "uart") (p := 2) (ac := Exclusive); [do 2 eexists; split; in_tac| |discriminate].
    do 3 eexists. split; [eapply S_hard with (r := mkRaw _ (Some 2) (Some _) _ _ _); [in_tac|reflexivity]|in_tac].
  - eapply X_local with (x := "buf") (n := "uart") (p := 2); [do 2 eexists; split; in_tac| |discriminate].
    do 3 eexists. split; [eapply S_hard with (r := mkRaw _ (Some 2) _ (Some _) _ _); [in_tac|reflexivity]|in_tac].
  - eapply X_spawn with (target := "log"); [in_tac|reflexivity|in_tac|reflexivity].
  - exists "cfg", (mkSR 3 false), "uart", 2, "work", 1. split; [do 2 eexists; split; in_tac|]. split; [reflexivity|]. split; [|split; [|discriminate]].
    + do 3 eexists. split; [eapply S_hard with (r := mkRaw _ (Some 2) (Some _) _ _ _); [in_tac|reflexivity]|in_tac].
    + do 3 eexists. split; [eapply S_soft with (r := mkRaw _ (Some 1) (Some _) _ _ _); [in_tac|reflexivity]|in_tac].
  - vm_compute. auto.
Qed.
(** An accepted application that moves a shared resource from [init] to a task of priority 2 and does not assert
    [Send] for its type: idle has a local resource of the same name. *)
Definition clash_send : list item :=
  base [("r", mkSR 1 false)] [("r", 4)] ++ [IIdle "idle" None (Some [("r", External)]); hw "hi" "UART1" 2 [("r", Exclusive)] None].
Theorem C10_send_refuted : exists items x T, expand (Cortex 3) [] items = Some x /\ crosses items (can_spawn (x_app x)) T /\ ~ In T (y_send (x_ana x)).
Proof.
  destruct (expand (Cortex 3) [] clash_send) as [x|] eqn:E; [|vm_compute in E; discriminate]. exists clash_send, x, 1. split; [exact E|]. split.
  - eapply X_init with (x := "r") (r := mkSR 1 false) (n := "hi") (p := 2) (ac := Exclusive); [do 2 eexists; split; in_tac| |discriminate].
    do 3 eexists. split; [eapply S_hard with (r := mkRaw _ (Some 2) (Some _) _ _ _); [in_tac|reflexivity]|in_tac].
  - vm_compute in E. injection E as <-. simpl. tauto.
Qed.
Example C11_case : x_ints ex_x = [(1, "QEI0"); (3, "CAN0")] /\
  vectors ex_x = [("UART0", 2, ["uart"]); ("SPI0", 2, ["spi"]); ("QEI0", 1, ["work"]); ("CAN0", 3, ["log"])] /\ thread_tasks ex_x = ["idle"] /\
  expand (Cortex 3) ["SSI0"] ex_items = None /\ expand (Cortex 3) ["SSI0"; "UART0"] ex_items = None /\ expand (Cortex 3) ["SSI0"; "SSI0"] ex_items = None.
Proof. vm_compute. repeat split. Qed.

(** * C12 *)
Section Start.
Context (b : bkind) (disp : list ident) (items : list item) (x : expansion) (Hx : expand b disp items = Some x).
(** The resources of task [n]: shared ones, and fields of the [#[local]] struct. *)
Definition needs n (st : ident) (v : value) : Prop :=
  (exists p r ac, uses_shared items n p r ac /\ st = shared_static r /\ v = VShared r) \/ (exists p r, uses_local items n p r /\ st = local_static r /\ v = VLocal r).
Lemma needs_statics a n k p ar st v : accepted b disp items a x -> is_task a n k p ar -> needs n st v -> In (st, v) (task_statics x ar).
Proof.
  intros H T [(p' & r & ac & U & -> & ->)|(p' & r & U & -> & ->)]; unfold task_statics; apply in_app_iff.
  - left. apply (uses_shared_iff H) in U as (k' & ar' & T' & I). destruct (task_names_unique (pd_wf (ac_parsed H)) T T') as (_ & _ & <-). apply in_map_iff. now exists (r, ac).
  - right. apply (uses_local_iff H) in U as (k' & ar' & T' & I). destruct (task_names_unique (pd_wf (ac_parsed H)) T T') as (_ & _ & <-). apply in_map_iff. exists r. split; [reflexivity|].
    unfold externals. apply in_map_iff. exists (r, External). split; [reflexivity|]. apply filter_In. auto.
Qed.
Lemma ready s n st v : sreach b x s -> ((t_on s = true /\ t_live s <> []) \/ exists pc, t_pc s = SThread :: pc) -> needs n st v -> t_inited s = true /\ holds_val s st = Some v.
Proof.
  destruct (@expand_accepted _ _ _ _ Hx) as [a H]. intros R C N. destruct (started H R C) as (d & I & D & _). split; [apply (si_inited I); apply D; apply (in_before H); auto|].
  assert (exists k p ar, is_task a n k p ar) as (k & p & ar & T). { destruct N as [(p' & r & ac & U & _)|(p' & r & U & _)]; [apply (uses_shared_iff H) in U|apply (uses_local_iff H) in U]; destruct U as (k & ar & T & _); eauto. }
  exact (statics_ready H _ _ I D T (needs_statics H T N)).
Qed.
(** Whenever an interrupt is taken, [init] has returned and the statics of all resources of the tasks of its handler hold the values it
    returned; likewise for what runs in thread mode. *)
Theorem C12_initialised_before_handlers s i s' p ts n st v : sreach b x s -> sstep x s (TIrq i) = Some s' -> In (i, p, ts) (vectors x) -> In n ts -> needs n st v ->
  t_inited s = true /\ holds_val s st = Some v.
Proof.
  intros R E V I N. apply (ready (n := n) R); [left|exact N]. simpl in E. destruct (t_on s); [|discriminate]. split; [reflexivity|]. intros L. rewrite L in E. discriminate.
Qed.
Theorem C12_initialised_before_idle s pc n st v : sreach b x s -> t_pc s = SThread :: pc -> In n (thread_tasks x) -> needs n st v -> t_inited s = true /\ holds_val s st = Some v.
Proof. intros R E I N. apply (ready (n := n) R); [right; eauto|exact N]. Qed.
(** From the first statement of [main] until all resources are stored, interrupts are off: no handler runs while [init] does. *)
Theorem C12_interrupts_off s : sreach b x s -> t_pc s <> main_code b x -> In SEnable (t_pc s) -> t_on s = false /\ forall i, sstep x s (TIrq i) = None.
Proof.
  destruct (@expand_accepted _ _ _ _ Hx) as [a H]. intros R N I. destruct (sreach_inv H R) as [d J]. assert (O : t_on s = false).
  { apply (si_off J); [|exact I]. intros ->. apply N. symmetry. exact (si_code J). }
  split; [exact O|]. intros i. simpl. now rewrite O.
Qed.
Theorem C12_no_handler_before_init_returns s i s' : sreach b x s -> sstep x s (TIrq i) = Some s' -> t_inited s = true.
Proof.
  destruct (@expand_accepted _ _ _ _ Hx) as [a H]. intros R E. assert (C : t_on s = true /\ t_live s <> []). { simpl in E. destruct (t_on s); [|discriminate]. split; [reflexivity|]. intros L. rewrite L in E. discriminate. }
  destruct (started H R (or_introl C)) as (d & I & D & _). apply (si_inited I). apply D. apply (in_before H). auto.
Qed.
(** * C60 *)
(** [main] never gets stuck or panics: it reaches thread mode (ESP32-C3: with at most sixteen handlers). *)
Theorem C60_start_up_completes_partial on : (b = Esp32c3 -> length (vectors x) <= 16) ->
  exists s, run (sstep x) (s_init b x on) (repeat TMain (length (main_code b x) - 1)) = Some s /\ t_pc s = [SThread] /\ t_on s = true.
Proof.
  intros Hlen. destruct (@expand_accepted _ _ _ _ Hx) as [a H].
  assert (G : forall l s, t_pc s = l ++ [SThread] -> ~ In SThread l -> (forall i p id, In (SConfigure i p (Some id)) l -> id < 32) -> exists s', run (sstep x) s (repeat TMain (length l)) = Some s' /\ t_pc s' = [SThread] /\ (forall l', l = l' ++ [SEnable] -> t_on s' = true)).
  { induction l as [|u l IH]; intros s E N F; simpl in *; [exists s; repeat split; auto; intros [|] ?; discriminate|].
    assert (exists s1, sstep x s TMain = Some s1 /\ t_pc s1 = l ++ [SThread] /\ (u = SEnable -> t_on s1 = true)) as (s1 & E1 & E2 & E3).
    { simpl. rewrite E. destruct u as [|i p k| | | | |].
      2:{ unfold ic_config. destruct k as [id|]; [rewrite (proj2 (Nat.ltb_lt id 32) (F i p id (or_introl eq_refl)))|]; (eexists; split; [reflexivity|split; [reflexivity|discriminate]]). }
      all: try (eexists; split; [reflexivity|split; [reflexivity|first [reflexivity|discriminate]]]). exfalso. apply N. now left. }
    simpl in E1. rewrite E1. destruct (IH s1 E2) as (s' & R & Ep & On); [tauto|eauto|]. exists s'. repeat split; auto. intros l' El. destruct l' as [|v l']; simpl in El; injection El as -> El; [subst l; simpl in R; injection R as <-; auto|eauto]. }
  destruct (G (before b x ++ [SEnable]) (s_init b x on)) as (s & R & Ep & On).
  - unfold s_init. cbn [t_pc]. rewrite (main_split b x), <- app_assoc. reflexivity.
  - intros I. apply in_app_iff in I as [I|[I|[]]]; [now apply (no_enable H) in I|discriminate].
  - intros i p id I. apply in_app_iff in I as [I|[I|[]]]; [|discriminate]. apply (in_before H) in I as [I|[(i' & p' & k' & [= <- <- <-] & I)|[I|[(n & r & I & _)|(n & r & I & _)]]]]; try discriminate.
    unfold routes in I. apply in_combine_r in I. apply in_map_iff in I as (j & Ej & J). apply in_seq in J. unfold configured, cpu_id in *. destruct b; try discriminate; injection Ej as <-.
    + specialize (Hlen eq_refl). unfold to_configure in J. unfold vectors in Hlen. rewrite app_length, !map_length in *. lia.
    + pose proof (firstn_le_length 12 (to_configure (x_app x) (x_ints x))). lia.
  - exists s. split; [|split; [exact Ep|now apply (On (before b x))]]. rewrite <- R. do 2 f_equal. rewrite (main_split b x), !app_length. simpl. lia.
Qed.

(** * C53 *)
(** When interrupts go on and tasks start, every generated handler's interrupt is enabled, at the priority of the handler
    and no other (ESP32-C6: if there are at most twelve). *)
Theorem C53_handlers_enabled_partial s pc i p ts : b <> Slic -> (b = Esp32c6 -> length (vectors x) <= 12) ->
  sreach b x s -> t_pc s = SThread :: pc -> In (i, p, ts) (vectors x) -> In i (t_live s) /\ In (i, p) (t_prio s) /\ forall q, In (i, q) (t_prio s) -> q = p.
Proof.
  destruct (@expand_accepted _ _ _ _ Hx) as [a H]. intros Hb Hc R E V. destruct (started H R (or_intror (ex_intro _ pc E))) as (d & I & D & _).
  assert (K : In (i, p) (t_prio s)). { apply (si_prio I). destruct (proj1 (configured_route b x i p) (vec_configured H _ V Hc)) as [k K]. exists k. apply D. apply (in_before H). right. left. exists i, p, k. auto. }
  split; [exact (si_live I _ _ K)|]. split; [exact K|]. intros q Q. apply (si_prio I) in Q as [k Q].
  assert (Q' : In (SConfigure i q k) (main_code b x)) by (rewrite (si_code I); apply in_app_iff; auto). rewrite (main_split b x) in Q'. apply in_app_iff in Q' as [Q'|[Q'|[Q'|[]]]]; try discriminate.
  apply (in_before H) in Q' as [Q'|[(i' & q' & k' & [= <- <- <-] & Q')|[Q'|[(n & r & Q' & _)|(n & r & Q' & _)]]]]; try discriminate.
  assert (Q2 : In (i, q) (configured b (x_app x) (x_ints x))) by (apply configured_route; eauto). apply (configured_vec H) in Q2 as [ts' V']. pose proof (@C11_handlers_distinct b disp items x Hx Hb) as N. clear - N V V'.
  induction (vectors x) as [|w l IH]; [destruct V|]. simpl in N. inversion N as [|? ? N1 N2]; subst. destruct V as [->|V], V' as [W|V'].
  - congruence.
  - exfalso. apply N1. simpl. apply in_map_iff. exists (i, q, ts'). auto.
  - exfalso. subst w. apply N1. simpl. apply in_map_iff. exists (i, p, ts). auto.
  - auto.
Qed.
End Start.

Example C12_case : needs ex_items "uart" (shared_static "cnt") (VShared "cnt") /\ needs ex_items "uart" (local_static "buf") (VLocal "buf") /\
  In ("UART0", 2, ["uart"]) (vectors ex_x) /\
  exists s, sreach (Cortex 3) ex_x s /\ t_pc s = [SThread] /\ (exists s', sstep ex_x s (TIrq "UART0") = Some s') /\ t_prio s = [("SPI0", 2); ("UART0", 2); ("CAN0", 3); ("QEI0", 1)] /\
    map fst (t_mem s) = ["__rtic_internal_local_resource_buf"; "__rtic_internal_shared_resource_cfg"; "__rtic_internal_shared_resource_raw"; "__rtic_internal_shared_resource_cnt"].
Proof.
  split; [|split; [|split]].
  - left. exists 2, "cnt", Exclusive. split; [|auto]. do 3 eexists. split; [eapply S_hard with (r := mkRaw _ (Some 2) (Some _) _ _ _); [in_tac|reflexivity]|in_tac].
  - right. exists 2, "buf". split; [|auto]. do 3 eexists. split; [eapply S_hard with (r := mkRaw _ (Some 2) _ (Some _) _ _); [in_tac|reflexivity]|in_tac].
  - vm_compute. auto.
  - destruct (run (sstep ex_x) (s_init (Cortex 3) ex_x true) (repeat TMain (length (main_code (Cortex 3) ex_x) - 1))) as [s|] eqn:E; [|vm_compute in E; discriminate].
    exists s. split; [exists true; eexists; exact E|]. vm_compute in E. injection E as <-. repeat split. eexists. reflexivity.
Qed.
(** ESP32-C6 with thirteen hardware tasks: accepted, and the thirteenth interrupt is never enabled. *)
Definition many_items : list item :=
  base [] [] ++ map (fun i => hw (append "t" (digits 3 i)) (append "INT" (digits 3 i)) 1 [] None) (seq 0 13).
Theorem C53_handlers_enabled_refuted : exists items x s i p ts, expand Esp32c6 [] items = Some x /\ sreach Esp32c6 x s /\ t_pc s = [SThread] /\
  In (i, p, ts) (vectors x) /\ ~ In i (t_live s) /\ forall q, ~ In (i, q) (t_prio s).
Proof.
  destruct (expand Esp32c6 [] many_items) as [x|] eqn:Ex; [|vm_compute in Ex; discriminate].
  destruct (run (sstep x) (s_init Esp32c6 x true) (repeat TMain (length (main_code Esp32c6 x) - 1))) as [s|] eqn:E.
  2:{ vm_compute in Ex. injection Ex as <-. vm_compute in E. discriminate. }
  exists many_items, x, s, "INT12", 1, ["t12"]. split; [exact Ex|]. split; [exists true; eexists; exact E|]. vm_compute in Ex. injection Ex as <-. vm_compute in E. injection E as <-.
  split; [reflexivity|]. split; [vm_compute; tauto|]. split; [|intros q]; simpl; intuition discriminate.
Qed.
Example C53_case : forall i p ts, In (i, p, ts) (vectors ex_x) -> In (i, p) [("SPI0", 2); ("UART0", 2); ("CAN0", 3); ("QEI0", 1)].
Proof. intros i p ts I. vm_compute in I. repeat (destruct I as [[= <- <- <-]|I]; [simpl; tauto|]). destruct I. Qed.

(** ESP32-C3 with seventeen hardware tasks: accepted, and start-up stops before [init] (CPU interrupt 32 does not exist). *)
Definition more_items : list item :=
  base [] [] ++ map (fun i => hw (append "t" (digits 3 i)) (append "INT" (digits 3 i)) 1 [] None) (seq 0 17).
Theorem C60_start_up_refuted : exists items x s, expand Esp32c3 [] items = Some x /\ sreach Esp32c3 x s /\ t_inited s = false /\ t_pc s <> [] /\ sstep x s TMain = None.
Proof.
  destruct (expand Esp32c3 [] more_items) as [x|] eqn:Ex; [|vm_compute in Ex; discriminate].
  destruct (run (sstep x) (s_init Esp32c3 x true) (repeat TMain 17)) as [s|] eqn:E.
  2:{ vm_compute in Ex. injection Ex as <-. vm_compute in E. discriminate. }
  exists more_items, x, s. split; [exact Ex|]. split; [exists true; eexists; exact E|]. vm_compute in Ex. injection Ex as <-. vm_compute in E. injection E as <-.
  split; [reflexivity|]. split; [discriminate|reflexivity].
Qed.
Example C60_case : length (vectors ex_x) = 4 /\ exists s, run (sstep ex_x) (s_init (Cortex 3) ex_x false) (repeat TMain 11) = Some s /\ t_pc s = [SThread] /\ t_on s = true.
Proof. split; [reflexivity|]. destruct (run (sstep ex_x) (s_init (Cortex 3) ex_x false) (repeat TMain 11)) as [s|] eqn:E; vm_compute in E; [injection E as <-|discriminate]. eexists. split; [reflexivity|]. split; reflexivity. Qed.

(** * C54 *)
(** End to end: what a task of the running application can touch. *)
Section EndToEnd.
Context (bits : nat) (disp : list ident) (items : list item) (x : expansion) (Hx : expand (Cortex bits) disp items = Some x) (Hbits : 1 <= bits <= 7).
Context (Hclash : forall r s, shared_field items r s -> sr_lock_free s = false -> no_clash items r).
Notation A := (lapp_of x).
Lemma top_cortex a : accepted (Cortex bits) disp items a x -> forall v, In v (vectors x) -> snd (fst v) <= 2 ^ bits.
Proof.
  intros H v V. pose proof (ac_prio H) as Q. rewrite forallb_forall in Q. assert (C : In (fst v) (configured (Cortex bits) (x_app x) (x_ints x))) by (apply (vec_configured H _ V); discriminate).
  apply Q in C. simpl in C. now apply Nat.leb_le in C.
Qed.
Lemma end_ok : app_ok A (2 ^ bits).
Proof. destruct (@expand_accepted _ _ _ _ Hx) as [a H]. apply (lapp_ok H); [now apply (top_cortex H)|exact Hclash]. Qed.
(** Locked resources. *)
Theorem C54_accepted_mutual_exclusion_partial (s : mach (bp bits A)) : bp_reach s -> mutual_exclusion A s.
Proof. exact (C01_basepri_mutual_exclusion Hbits end_ok (s := s)). Qed.
(** Task number [t] is task [n] of the source. *)
Definition is_number t n : Prop := exists ar, nth_error (run_tasks x) t = Some (n, ar).
(** Lock-free resources: no two handlers, one having preempted the other, run tasks that list the same one; and a handler
    runs only one such task. *)
Theorem C54_lock_free_exclusive_partial (s : mach (bp bits A)) above f below g r sr t n t' n' p ac p' ac' : bp_reach s -> m_stack s = above ++ f :: below -> In g above ->
  shared_field items r sr -> sr_lock_free sr = true -> is_number t n -> is_number t' n' -> uses_shared items n p r ac -> uses_shared items n' p' r ac' -> may_run A f t -> may_run A g t' -> False.
Proof.
  intros R E G F L (ar & N) (ar' & N') U U' M M'. pose proof (C13_delayed_only_by_higher Hbits end_ok above f below g R E G) as Q. unfold may_run in M, M'. rewrite <- M, <- M' in Q.
  destruct (@expand_accepted _ _ _ _ Hx) as [a H]. destruct (run_task_in H _ N) as (k & q & T). destruct (run_task_in H _ N') as (k' & q' & T').
  pose proof (run_tprio H _ N T) as P1. pose proof (run_tprio H _ N' T') as P2. unfold tprio in P1, P2. rewrite P1, P2 in Q.
  assert (q = p). { apply (uses_shared_iff H) in U as (k0 & ar0 & T0 & _). now destruct (task_names_unique (pd_wf (ac_parsed H)) T T0) as (_ & -> & _). }
  assert (q' = p'). { apply (uses_shared_iff H) in U' as (k0 & ar0 & T0 & _). now destruct (task_names_unique (pd_wf (ac_parsed H)) T' T0) as (_ & -> & _). }
  subst. pose proof (proj2 (lock_free_ok H F L) _ _ _ _ _ _ U U'). lia.
Qed.
Theorem C54_lock_free_one_task_per_handler (s : mach (bp bits A)) f r sr t n t' n' p ac p' ac' : In f (m_stack s) ->
  shared_field items r sr -> sr_lock_free sr = true -> is_number t n -> is_number t' n' -> uses_shared items n p r ac -> uses_shared items n' p' r ac' -> may_run A f t -> may_run A f t' -> n = n'.
Proof.
  intros _ F L (ar & N) (ar' & N') U U' M M'. destruct (@expand_accepted _ _ _ _ Hx) as [a H]. unfold may_run in M, M'. rewrite <- M in M'. clear M. cbn [lapp_of l_line] in M'. rewrite N, N' in M'.
  assert (S1 : exists k sh lo, src_task items n k p sh lo /\ k <> KSoft). { destruct U as (k & sh & lo & T & I). exists k, sh, lo. split; [auto|]. eapply (lock_free_ok H F L); eauto. }
  assert (S2 : exists k sh lo, src_task items n' k p' sh lo /\ k <> KSoft). { destruct U' as (k & sh & lo & T & I). exists k, sh, lo. split; [auto|]. eapply (lock_free_ok H F L); eauto. }
  destruct S1 as (k & sh & lo & T & K), S2 as (k' & sh' & lo' & T' & K').
  destruct (find_index (fun v => mem n (snd v)) (vectors x)) as [i|] eqn:I1.
  - apply find_index_some with (d := no_vec) in I1 as [L1 M1]. apply find_index_some with (d := no_vec) in M' as [_ M2]. apply mem_in in M1, M2. pose proof (nth_In _ no_vec L1) as V.
    destruct (@vec_runs _ _ _ _ _ H _ _ V M1) as (k1 & sh1 & lo1 & T1 & C1). destruct (@vec_runs _ _ _ _ _ H _ _ V M2) as (k2 & sh2 & lo2 & T2 & C2).
    destruct (src_unique H T T1) as (-> & _). destruct (src_unique H T' T2) as (-> & _). destruct C1 as [[_ C1]|(C1 & _)]; [|contradiction]. destruct C2 as [[_ C2]|(C2 & _)]; [|contradiction]. congruence.
  - assert (Z : forall m km pm shm lom, find_index (fun v => mem m (snd v)) (vectors x) = None -> src_task items m km pm shm lom -> km <> KSoft -> exists ar, ap_idle a = Some (m, ar)).
    { intros m km pm shm lom Fi Tm Km. destruct (Nat.eq_dec pm 0) as [->|Hp].
      - pose proof Tm as Tm'. apply (pd_task (ac_parsed H)) in Tm'. inversion Tm' as [? ? G|? ? G E|? ? G]; subst; [eauto| |congruence]. exfalso. pose proof (proj2 (src_prio H Tm) _ eq_refl). lia.
      - exfalso. destruct (vec_exists H Tm) as (v & V & Mv & _); [lia|]. pose proof (@find_index_none _ (fun v => mem m (snd v)) (vectors x) v Fi V) as B. apply mem_in in Mv. simpl in B. congruence. }
    destruct (Z _ _ _ _ _ I1 T K) as [ar1 Z1]. destruct (Z _ _ _ _ _ M' T' K') as [ar2 Z2]. congruence.
Qed.
End EndToEnd.
Lemma top1_spec (B : backend) (s : mach B) p : top1 s p = true -> exists f fs, m_stack s = f :: fs /\ p f = true.
Proof. unfold top1. destruct (m_stack s) as [|f fs]; [discriminate|]. eauto. Qed.
Lemma top2_spec (B : backend) (s : mach B) p : top2 s p = true -> exists g f fs, m_stack s = g :: f :: fs /\ p g f = true.
Proof. unfold top2. destruct (m_stack s) as [|g [|f fs]]; try discriminate. eauto. Qed.
Definition runs (B : backend) (f : frame B) (t : nat) : bool := match f_task f with Some u => Nat.eqb u t | None => false end.
Lemma runs_spec (B : backend) (f : frame B) t : runs f t = true -> f_task f = Some t.
Proof. unfold runs. destruct (f_task f) as [u|]; [|discriminate]. intros E. now apply Nat.eqb_eq in E as ->. Qed.
Lemma ex_no_clash r sr : shared_field ex_items r sr -> sr_lock_free sr = false -> no_clash ex_items r.
Proof.
  intros (sn & fs & I & J) _. assert (r = "cnt" \/ r = "raw" \/ r = "cfg") as D.
  { simpl in I. repeat (destruct I as [I|I]; [try discriminate; injection I as <- <-; simpl in J; destruct J as [J|[J|[J|[]]]]; injection J as <- _; auto|]). destruct I. }
  clear I J. destruct D as [-> | [-> | -> ]]; no_clash_tac.
Qed.
(** The example application: [uart] (task 1) inside a lock on [cnt]; the dispatcher of priority 1 is kept out, the one of
    priority 3 is not. *)
Example C54_case : exists s : mach (bp 3 (lapp_of ex_x)), bp_reach s /\ (exists f fs, m_stack s = f :: fs /\ f_task f = Some 1 /\ holds f 0) /\ can_take (lapp_of ex_x) s 2 = false /\ can_take (lapp_of ex_x) s 3 = true /\
  (forall r sr, shared_field ex_items r sr -> sr_lock_free sr = false -> no_clash ex_items r) /\ is_number ex_x 1 "uart".
Proof.
  destruct (@run_check (bp 3 (lapp_of ex_x)) (run (@mstep (bp 3 (lapp_of ex_x)) (lapp_of ex_x)) (m_init (bp 3 (lapp_of ex_x)) breg0 breg0) [LTake 0; LStart 1; LLock 0; LMicro; LMicro])
    (fun s => top1 s (fun f => holdsb f 0 && runs f 1) && negb (can_take (lapp_of ex_x) s 2) && can_take (lapp_of ex_x) s 3)) as (s & E & C); [vm_compute; reflexivity|].
  exists s. split; [eexists; exact E|]. clear E. apply andb_prop in C as [C C3]. apply andb_prop in C as [C1 C2]. apply negb_true_iff in C2. split; [|split; [exact C2|split; [exact C3|split]]].
  - apply top1_spec in C1 as (f & fs & D & C1). apply andb_prop in C1 as [D1 D2]. exists f, fs. split; [exact D|]. split; [exact (runs_spec _ _ D2)|exact (holdsb_spec _ _ D1)].
  - exact ex_no_clash.
  - eexists. vm_compute. reflexivity.
Qed.
(** With the clashing names both tasks get into the lock at once. *)
Theorem C54_accepted_mutual_exclusion_refuted : exists items x (s : mach (bp 3 (lapp_of x))), expand (Cortex 3) [] items = Some x /\ bp_reach s /\
  (exists f g below r, m_stack s = g :: f :: below /\ holds f r /\ holds g r) /\ ~ mutual_exclusion (lapp_of x) s.
Proof.
  exists clash_items, clash_x.
  destruct (@run_check (bp 3 (lapp_of clash_x)) (run (@mstep (bp 3 (lapp_of clash_x)) (lapp_of clash_x)) (m_init (bp 3 (lapp_of clash_x)) breg0 breg0) [LTake 0; LStart 0; LLock 0; LMicro; LMicro; LTake 1; LStart 1; LLock 0; LMicro; LMicro])
    (fun s => top2 s (fun g f => holdsb f 0 && holdsb g 0))) as (s & E & C); [vm_compute; reflexivity|].
  exists s. split; [exact clash_accepted|]. split; [eexists; exact E|]. clear E. apply top2_spec in C as (g & f & below & Es & C). apply andb_prop in C as [C1 C2]. apply holdsb_spec in C1, C2.
  split; [exists f, g, below, 0; auto|]. intros X. exact (two_holders X Es C1 C2).
Qed.

(** * C48 *)
Lemma split_underscore t t' n n' : append t (String "_" n) = append t' (String "_" n') -> (t = t' /\ n = n') \/ (exists s, t = append t' (String "_" s)) \/ (exists s, t' = append t (String "_" s)).
Proof.
  revert t'. induction t as [|c t IH]; intros t' E.
  - destruct t' as [|c' t']; simpl in E; [injection E as ->; auto|]. injection E as <- E. right. right. exists t'. reflexivity.
  - destruct t' as [|c' t']; simpl in E.
    + injection E as -> E. right. left. exists t. reflexivity.
    + injection E as <- E. destruct (IH _ E) as [[-> ->]|[[s ->]|[s ->]]]; [auto|right; left; exists s; reflexivity|right; right; exists s; reflexivity].
Qed.
(** The static of a local resource: a field of the [#[local]] struct, or declared in a task. *)
Inductive local_res := LField (n : ident) | LDecl (task n : ident).
Definition static_name (l : local_res) : ident := match l with LField n => local_static n | LDecl t n => declared_static t n end.
(** The prefix before the last part of the name. *)
Definition owner (l : local_res) : ident := match l with LField _ => "resource" | LDecl t _ => t end.
Definition res_name (l : local_res) : ident := match l with LField n => n | LDecl _ n => n end.
Definition in_app items (l : local_res) : Prop := match l with LField n => exists t, local_field items n t | LDecl t n => declares items t n end.
(** Two different local resources of an accepted application get the same static only if one owner is the other
    followed by an underscore and more (a declared resource counts as owned by the task, a field by ["resource"]). *)
Theorem C48_static_names_partial b disp items x l l' : expand b disp items = Some x -> in_app items l -> in_app items l' -> static_name l = static_name l' ->
  l = l' \/ (exists s, owner l = append (owner l') (String "_" s)) \/ (exists s, owner l' = append (owner l) (String "_" s)).
Proof.
  intros Hx I I'. destruct (@expand_accepted _ _ _ _ Hx) as [a H].
  assert (S : forall l, static_name l = internal (append "local_" (append (owner l) (String "_" (res_name l))))) by (intros [n|t n]; reflexivity).
  rewrite !S. unfold internal. intros E. apply append_inj in E. apply append_inj in E. apply split_underscore in E as [[E1 E2]|E]; [left|auto].
  destruct l as [n|t n], l' as [n'|t' n']; simpl in *; subst; auto; exfalso.
  - destruct I as [t F]. exact (local_not_declared H F I').
  - destruct I' as [t F]. exact (local_not_declared H F I).
Qed.
(** In particular no clash when task names contain no underscore. *)
Fixpoint no_underscore (s : string) : Prop := match s with EmptyString => True | String c s' => c <> "_"%char /\ no_underscore s' end.
Lemma no_underscore_app t s : ~ no_underscore (append t (String "_" s)).
Proof. induction t as [|c t IH]; simpl; tauto. Qed.
Theorem C48_no_underscore b disp items x l l' : expand b disp items = Some x -> (forall t n, declares items t n -> no_underscore t) -> in_app items l -> in_app items l' -> static_name l = static_name l' -> l = l'.
Proof.
  intros Hx N I I' E. assert (O : forall m, in_app items m -> no_underscore (owner m)). { intros [n|t n] J; [simpl; repeat split; discriminate|exact (N _ _ J)]. }
  destruct (@C48_static_names_partial _ _ _ _ _ _ Hx I I' E) as [E0|[[s E1]|[s E1]]]; [auto|exfalso|exfalso].
  - apply O in I. rewrite E1 in I. now apply no_underscore_app in I.
  - apply O in I'. rewrite E1 in I'. now apply no_underscore_app in I'.
Qed.
(** Shared resources get names of their own. *)
Theorem C48_shared_names n n' : (shared_static n = shared_static n' -> n = n') /\ forall l, shared_static n <> static_name l.
Proof. split; [unfold shared_static, internal; intros E; do 2 apply append_inj in E; exact E|]. intros [m|t m]; discriminate. Qed.
(** Accepted applications with two local resources of the same static name. *)
Theorem C48_names_refuted : exists items x, expand (Cortex 3) [] items = Some x /\ declares items "a_b" "c" /\ declares items "a" "b_c" /\ static_name (LDecl "a_b" "c") = static_name (LDecl "a" "b_c").
Proof.
  destruct (expand (Cortex 3) [] (base [] [] ++ [hw "a_b" "A" 1 [] (Some [("c", Declared)]); hw "a" "B" 1 [] (Some [("b_c", Declared)])])) as [x|] eqn:E; [|vm_compute in E; discriminate].
  do 2 eexists. split; [exact E|]. split; [|split; [|reflexivity]]; left; do 4 eexists; (split; [eapply S_hard with (r := mkRaw _ (Some 1) _ (Some _) _ _); [in_tac|reflexivity]|in_tac]).
Qed.
Theorem C48_field_names_refuted : exists items x, expand (Cortex 3) [] items = Some x /\ declares items "resource_y" "x" /\ local_field items "y_x" 1 /\ static_name (LDecl "resource_y" "x") = static_name (LField "y_x").
Proof.
  destruct (expand (Cortex 3) [] (base [] [("y_x", 1)] ++ [hw "resource_y" "A" 1 [] (Some [("x", Declared)]); hw "a" "B" 1 [] (Some [("y_x", External)])])) as [x|] eqn:E; [|vm_compute in E; discriminate].
  do 2 eexists. split; [exact E|]. split; [|split; [|reflexivity]]; [left; do 4 eexists; (split; [eapply S_hard with (r := mkRaw _ (Some 1) _ (Some _) _ _); [in_tac|reflexivity]|in_tac])|do 2 eexists; split; in_tac].
Qed.
Example C48_case : declares ex_items "work" "state" /\ local_field ex_items "buf" 4 /\ forall t n, declares ex_items t n -> no_underscore t.
Proof.
  split; [|split; [do 2 eexists; split; in_tac|]].
  - left. do 4 eexists. split; [eapply S_soft with (r := mkRaw _ (Some 1) _ (Some _) _ _); [in_tac|reflexivity]|in_tac].
  - intros t n [(k & p & sh & lo & T & I)|(lo & ss & ls & I & J)].
    + destruct T as [m sh lo T|m r b T E|m r T E]; simpl in T; repeat (destruct T as [T|T]; [try discriminate; injection T; intros; subst; simpl; repeat split; discriminate|]); destruct T.
    + simpl in I. repeat (destruct I as [I|I]; [try discriminate; injection I; intros; subst; simpl; repeat split; discriminate|]). destruct I.
Qed.

Print Assumptions C07_ceiling_is_highest_partial.
Print Assumptions C07_ceiling_of_clash.
Print Assumptions C07_order_independent.
Print Assumptions C07_ceiling_refuted.
Print Assumptions C08_lock_free_one_priority.
Print Assumptions C09_local_at_most_one_task.
Print Assumptions C09_local_not_in_init.
Print Assumptions C10_send_partial.
Print Assumptions C10_sync.
Print Assumptions C10_send_refuted.
Print Assumptions C11_dispatcher_per_priority.
Print Assumptions C11_dispatcher_unique.
Print Assumptions C11_dispatcher_declared.
Print Assumptions C11_handlers_distinct.
Print Assumptions C11_one_handler_per_task.
Print Assumptions C11_priority_zero_in_thread.
Print Assumptions C11_too_few_rejected.
Print Assumptions C12_initialised_before_handlers.
Print Assumptions C12_initialised_before_idle.
Print Assumptions C12_interrupts_off.
Print Assumptions C12_no_handler_before_init_returns.
Print Assumptions C60_start_up_completes_partial.
Print Assumptions C60_start_up_refuted.
Print Assumptions C53_handlers_enabled_partial.
Print Assumptions C53_handlers_enabled_refuted.
Print Assumptions C54_accepted_mutual_exclusion_partial.
Print Assumptions C54_lock_free_exclusive_partial.
Print Assumptions C54_lock_free_one_task_per_handler.
Print Assumptions C54_accepted_mutual_exclusion_refuted.
Print Assumptions C48_static_names_partial.
Print Assumptions C48_no_underscore.
Print Assumptions C48_shared_names.
Print Assumptions C48_names_refuted.
Print Assumptions C48_field_names_refuted.
