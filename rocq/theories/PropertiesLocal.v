(** C71: the arguments of a local task stay with one dispatcher.

    [can_spawn (x_app x) who u]: the code of software task [n] ([who = Some n]), or code running anywhere else ([None]), can call
    [spawn] of [u] without [unsafe] (AppModel.v, codegen/module.rs).  [vectors x]: the generated handlers with the tasks
    they run; [lapp_of x]: the application on the machine with preemption (LockModel.v); ExecModel.v: the executor. *)
From Verif Require Import Base LTS AppModel AppSpec AppProofs AppAnalysis AppChecks AppFinal AppRun LockModel LockSpec LockBackends PropertiesLock StackBound ExecModel ExecSpec ExecProofs PropertiesExec PropertiesApp.
Set Implicit Arguments.
Open Scope string_scope. Open Scope list_scope.

(** [u] is written as [#[task(local_task = true, ...)] async fn u], of priority [p]. *)
Definition local_task items u p : Prop := exists r, In (ITask u r) items /\ rt_binds r = None /\ rt_local_task r = Some true /\ soft_prio r = p.

Section C71.
Context (b : bkind) (disp : list ident) (items : list item) (x : expansion) (Hx : expand b disp items = Some x).
Notation A := (lapp_of x).

Lemma local_in u p : local_task items u p -> exists t, In (u, t) (ap_sw (x_app x)) /\ sw_local_task t = true /\ sw_prio t = p.
Proof.
  destruct (@expand_accepted _ _ _ _ Hx) as [a H]. intros (r & I & B & L & P). exists (sw_of r). rewrite (acc_sw H). split.
  - apply (pd_sw (ac_parsed H)). eauto.
  - unfold sw_of, soft_prio in *. simpl. rewrite L. auto.
Qed.
Lemma sw_src n t : In (n, t) (ap_sw (x_app x)) -> src_task items n KSoft (sw_prio t) (a_shared (sw_args t)) (a_local (sw_args t)).
Proof.
  destruct (@expand_accepted _ _ _ _ Hx) as [a H]. rewrite (acc_sw H). intros I. apply (pd_task (ac_parsed H)).
  replace (mkArgs _ _) with (sw_args t) by now destruct (sw_args t). now apply T_sw.
Qed.
Lemma sw_names : NoDup (map fst (ap_sw (x_app x))).
Proof.
  destruct (@expand_accepted _ _ _ _ Hx) as [a H]. rewrite (acc_sw H). pose proof (wf_names (pd_wf (ac_parsed H))) as N.
  inversion N as [|? ? _ N']; subst. apply NoDup_app_inv in N' as (_ & N' & _). now apply NoDup_app_inv in N' as (_ & N' & _).
Qed.

(** Who can spawn a software task: everyone, unless it is a local task: then the software tasks of its priority. *)
Theorem C71_spawners u who : can_spawn (x_app x) who u = true <->
  exists r, In (ITask u r) items /\ rt_binds r = None /\ (rt_local_task r <> Some true \/ exists n sh lo, who = Some n /\ src_task items n KSoft (soft_prio r) sh lo).
Proof.
  destruct (@expand_accepted _ _ _ _ Hx) as [a H]. unfold can_spawn. split.
  - destruct (iget (ap_sw (x_app x)) u) as [t|] eqn:E; [|discriminate]. intros C. apply iget_in in E. rewrite (acc_sw H) in E. apply (pd_sw (ac_parsed H)) in E as (r & I & B & ->). exists r. split; [exact I|]. split; [exact B|].
    unfold sw_of in C. cbn [sw_local_task sw_prio] in C. destruct (rt_local_task r) as [[]|]; [right|left; discriminate..].
    destruct who as [n|]; [|discriminate]. destruct (iget (ap_sw (x_app x)) n) as [s|] eqn:E; [|discriminate]. apply Nat.eqb_eq in C. apply iget_in in E. apply sw_src in E. rewrite C in E. eauto.
  - intros (r & I & B & C). assert (G : In (u, sw_of r) (ap_sw (x_app x))) by (rewrite (acc_sw H); apply (pd_sw (ac_parsed H)); eauto). rewrite (in_iget _ _ _ sw_names G). unfold sw_of at 1. cbn [sw_local_task].
    destruct C as [C|(n & sh & lo & -> & T)]; [destruct (rt_local_task r) as [[]|]; congruence|]. destruct (rt_local_task r) as [[]|]; [|reflexivity..].
    apply (pd_task (ac_parsed H)) in T. apply (acc_is_task H) in T. remember KSoft as k eqn:Ek. remember (mkArgs sh lo) as ar. remember (soft_prio r) as q. destruct T as [m ar T|m t T|m t T]; [discriminate..|]. rewrite (in_iget _ _ _ sw_names T). unfold sw_of. cbn [sw_prio]. apply Nat.eqb_eq. congruence.
Qed.
(** Who can spawn a local task is a software task of the same priority, *)
Theorem C71_same_priority u p who : local_task items u p -> can_spawn (x_app x) who u = true ->
  exists n sh lo, who = Some n /\ src_task items n KSoft p sh lo.
Proof.
  intros (t & I & L & P)%local_in C. unfold can_spawn in C. rewrite (in_iget _ _ _ sw_names I) in C. rewrite L in C.
  destruct who as [n|]; [|discriminate]. destruct (iget (ap_sw (x_app x)) n) as [s|] eqn:E; [|discriminate].
  apply Nat.eqb_eq in C. apply iget_in in E. apply sw_src in E. rewrite C, P in E. eauto.
Qed.
(** and the handler that polls one polls the other, and no other handler polls either (priority 0: both in thread mode).
    So the arguments are only ever handled by one handler. *)
Theorem C71_same_handler u p n : local_task items u p -> can_spawn (x_app x) (Some n) u = true ->
  (1 <= p -> exists d ts, In (d, p, ts) (vectors x) /\ In n ts /\ In u ts /\
    forall v, In v (vectors x) -> In n (snd v) \/ In u (snd v) -> v = (d, p, ts)) /\
  (p = 0 -> In n (thread_tasks x) /\ In u (thread_tasks x) /\ forall v, In v (vectors x) -> ~ In n (snd v) /\ ~ In u (snd v)).
Proof.
  intros Lu C. destruct (C71_same_priority _ Lu C) as (n' & sh & lo & [= <-] & T). apply local_in in Lu as (t & I & L & P). apply sw_src in I. rewrite P in I.
  destruct (@expand_accepted _ _ _ _ Hx) as [a H]. split.
  - intros Hp. destruct (vec_exists H T Hp) as ([[d q] ts] & V & N & Eq). simpl in *. subst q.
    assert (U : In u ts).
    { destruct (@vec_runs _ _ _ _ _ H _ _ V N) as (k & sh' & lo' & T' & [(K & _)|(K & E & _)]); simpl in *.
      - destruct (src_unique H T T') as (K' & _). congruence.
      - rewrite E. apply (chan_in H). eauto. }
    exists d, ts. repeat split; auto. intros v V' [M|M]; exact (vec_unique H _ _ _ V' V M ltac:(assumption)).
  - intros ->. destruct (@C11_priority_zero_in_thread _ _ _ _ Hx n KSoft sh lo T) as [K1 K2]. destruct (@C11_priority_zero_in_thread _ _ _ _ Hx u KSoft _ _ I) as [K3 K4].
    split; [exact K1|]. split; [exact K3|]. intros v I'. split; [exact (K2 v I')|exact (K4 v I')].
Qed.
(** At every moment of every run, for every masking backend: while [n] spawns [u], the handler that will poll [u] is the one
    executing [n]; it is not entered again (so it cannot preempt the spawn) and runs no other task. *)
Theorem C71_poller_is_the_spawner (B : backend) (m0 : bm B) (x0 : bs B) (s : mach B) u p n t t' f fs :
  local_task items u p -> can_spawn (x_app x) (Some n) u = true -> mreach A m0 x0 s ->
  m_stack s = f :: fs -> is_number x t n -> is_number x t' u -> f_task f = Some t ->
  l_line A t' = f_line f /\ (forall i, f_line f = Some i -> mstep A s (LTake i) = None) /\ (forall g, In g fs -> f_line g <> f_line f \/ f_line f = None).
Proof.
  intros Lu C R E [ar Nt] [ar' Nt'] Ft. pose proof (sok_reach R) as K. rewrite E in K.
  assert (F : l_line A t = f_line f) by (destruct K as [(K & _) _]; now apply K).
  assert (S : l_line A t' = l_line A t).
  { cbn [lapp_of l_line]. rewrite Nt, Nt'. destruct (C71_same_handler _ Lu C) as [H1 H0].
    assert (X : forall v, In v (vectors x) -> mem u (snd v) = mem n (snd v)).
    { intros v V. destruct (Nat.eq_dec p 0) as [Hp|Hp].
      - destruct (H0 Hp) as (_ & _ & H). destruct (H v V) as [N1 N2]. destruct (mem u (snd v)) eqn:E1; [apply mem_in in E1; contradiction|].
        destruct (mem n (snd v)) eqn:E2; [apply mem_in in E2; contradiction|reflexivity].
      - destruct H1 as (d & ts & V' & N1 & N2 & H); [lia|]. destruct (mem u (snd v)) eqn:E1.
        + apply mem_in in E1. rewrite (H v V (or_intror E1)). symmetry. now apply mem_in.
        + destruct (mem n (snd v)) eqn:E2; [|reflexivity]. apply mem_in in E2. rewrite (H v V (or_introl E2)) in E1. apply mem_in in N2. simpl in E1. congruence. }
    clear - X. induction (vectors x) as [|v l IH]; [reflexivity|]. simpl. rewrite (X v (or_introl eq_refl)), IH; [reflexivity|]. intros w W. apply X. now right. }
  split; [congruence|]. split.
  - intros i Fi. unfold mstep. rewrite E. destruct (can_take A s i) eqn:T; [|reflexivity]. exfalso. unfold can_take in T. rewrite E in T.
    apply andb_prop in T as [_ T]. simpl in T. rewrite Fi in T. simpl in T. rewrite Nat.ltb_irrefl in T. discriminate.
  - intros g G. destruct (f_line f) as [i|] eqn:Fi; [left|right; reflexivity]. simpl in K. destruct fs as [|f' fs']; [destruct G|].
    destruct K as (_ & _ & K & _). specialize (K g G). intros Q. rewrite Q, Fi in K. simpl in K. lia.
Qed.
End C71.

(** Hence the poll of a completed future (C17) cannot hit a local task: in every run of the executor in which a spawn of one of [locals] is
    not interrupted by the dispatcher's own steps, no task of [locals] is ever polled dead. *)
Section Exec.
Context {V : Type} (zero : bool) (tasks locals : list nat).
Notation step := (xstep (V := V) zero tasks).
Theorem C71_never_polled_dead s l s' :
  greach step (fun s l => match l with LDisp _ => forall c t, In t locals -> ~ in_window s c t | _ => True end) ex_new s ->
  (match l with LDisp _ => forall c t, In t locals -> ~ in_window s c t | _ => True end) ->
  step s l = Some s' -> ebug s' = true -> exists t ts, dp s = DChk t ts /\ ~ In t locals.
Proof.
  intros G Hl Hs Hb. assert (R : xreach zero tasks s) by (destruct G as (ls & _ & Hr); exists ls; exact Hr).
  destruct (@C17_bad_poll_only_in_window_partial V zero tasks s l s' R Hs Hb) as (c & t & W & _ & ts & r & D & ->).
  exists t, ts. split; [exact D|]. intros I. exact (Hl c t I W).
Qed.
End Exec.

(** Tasks [net] and [job] (local, with an argument of type 7) on priority 2, [other] on priority 1. *)
Definition loc_items : list item :=
  base [] [] ++ [sw "net" 2 [] None []; ITask "job" (mkRaw None (Some 2) None None (Some true) [7]); sw "other" 1 [] None [8]].
Definition loc_x : expansion := match expand (Cortex 3) ["SSI0"; "QEI0"] loc_items with Some x => x | None => mkX (mkApp [] ("", []) None [] [] [] []) (mkAna [] [] [] [] [] []) [] end.
Example C71_case :
  expand (Cortex 3) ["SSI0"; "QEI0"] loc_items = Some loc_x /\ local_task loc_items "job" 2 /\
  can_spawn (x_app loc_x) (Some "net") "job" = true /\ can_spawn (x_app loc_x) (Some "job") "job" = true /\
  can_spawn (x_app loc_x) (Some "other") "job" = false /\ can_spawn (x_app loc_x) None "job" = false /\ can_spawn (x_app loc_x) None "other" = true /\
  y_send (x_ana loc_x) = [8] /\ In ("QEI0", 2, ["net"; "job"]) (vectors loc_x).
Proof.
  split; [vm_compute; reflexivity|]. split; [eexists; split; [in_tac|repeat split]|]. vm_compute. auto 10.
Qed.
Example C71_run_case : (is_number loc_x 0 "net" /\ is_number loc_x 1 "job") /\
  exists s : mach (bp 3 (lapp_of loc_x)), bp_reach s /\ map (@f_task _) (m_stack s) = [Some 0; None; None].
Proof.
  split; [split; eexists; vm_compute; reflexivity|].
  destruct (run (@mstep (bp 3 (lapp_of loc_x)) (lapp_of loc_x)) (m_init (bp 3 (lapp_of loc_x)) breg0 breg0) [LTake 0; LTake 1; LStart 0]) as [s|] eqn:E; [|vm_compute in E; discriminate].
  exists s. split; [eexists; exact E|]. vm_compute in E. injection E as <-. reflexivity.
Qed.
Print Assumptions C71_same_priority.
Print Assumptions C71_same_handler.
Print Assumptions C71_poller_is_the_spawner.
Print Assumptions C71_never_polled_dead.
