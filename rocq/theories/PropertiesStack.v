(** C70: stack use is bounded when the application is compiled.

    The machine and the stack of active handlers are those of LockModel.v, for any masking backend [B]; [lapp_of x] is
    the application the macro generated, [x] being its output for any input ([vectors x]: its interrupt handlers with their priorities and tasks).
    [stack_use size s] adds up, over the active handlers and thread mode, what each uses while it runs its current task. *)
From Verif Require Import Base LTS AppModel AppSpec AppProofs AppAnalysis AppChecks AppFinal AppRun LockModel LockSpec LockBackends PropertiesLock PropertiesApp StackBound.
Set Implicit Arguments.
Open Scope string_scope. Open Scope list_scope.

Section C70.
Context (x : expansion).
Context (B : backend) (m0 : bm B) (x0 : bs B).
Notation A := (lapp_of x).
(** the priorities of the generated handlers, each once *)
Definition used_prios : list nat := nodup Nat.eq_dec (map (fun v => snd (fst v)) (vectors x)).

Lemma levels_prios : levels A = used_prios.
Proof.
  unfold levels, used_prios. f_equal. cbn [lapp_of l_lines l_prio].
  assert (K : forall (l l0 : list (ident * nat * list ident)), map (fun i => snd (fst (nth i (l0 ++ l) no_vec))) (seq (length l0) (length l)) = map (fun v => snd (fst v)) l).
  { induction l as [|v l IH]; intros l0; [reflexivity|]. simpl. f_equal.
    - rewrite app_nth2, Nat.sub_diag; [reflexivity|lia].
    - specialize (IH (l0 ++ [v])). rewrite <- app_assoc in IH. simpl in IH. rewrite <- IH. f_equal. f_equal. rewrite app_length. simpl. lia. }
  exact (K (vectors x) []).
Qed.

(** Every active handler has a higher priority than all it has preempted: at most one per priority, none twice. *)
Theorem C70_one_handler_per_priority (s : mach B) above f below g : mreach A m0 x0 s -> m_stack s = above ++ f :: below -> In g above ->
  lprio A (f_line f) < lprio A (f_line g).
Proof. intros R E G. pose proof (sok_reach R) as H. rewrite E in H. exact (proj2 (@sok_split _ _ _ _ _ H) g G). Qed.
(** So no more handlers are active than there are priorities in use (plus thread mode), *)
Theorem C70_depth (s : mach B) : mreach A m0 x0 s -> length (m_stack s) <= 1 + length used_prios.
Proof. intros R. rewrite <- levels_prios. exact (depth R). Qed.
(** and the stack never exceeds that of thread mode plus, for each priority in use, the largest of its handlers.  [size v task]
    is what handler [v] uses while it runs [task]. *)
Theorem C70_stack_bounded (s : mach B) (size : option (ident * nat * list ident) -> option nat -> nat) (bound : nat -> nat) :
  mreach A m0 x0 s ->
  (forall v, In v (vectors x) -> size (Some v) None <= bound (snd (fst v)) /\
     forall t n, is_number x t n -> In n (snd v) -> size (Some v) (Some t) <= bound (snd (fst v))) ->
  size None None <= bound 0 -> (forall t, tprio A t = 0 -> size None (Some t) <= bound 0) ->
  stack_use (fun l t => size (option_map (fun i => nth i (vectors x) no_vec) l) t) s <= bound 0 + sum_of bound used_prios.
Proof.
  intros R Hv H0 Ht. rewrite <- levels_prios. apply (use_bound R). split; [|split].
  - intros i I. cbn [lapp_of l_lines l_prio] in *. apply in_seq in I. assert (V : In (nth i (vectors x) no_vec) (vectors x)) by (apply nth_In; lia).
    destruct (Hv _ V) as [H1 H2]. split; [exact H1|]. intros t E. cbn [lapp_of l_line] in E. destruct (nth_error (run_tasks x) t) as [[n ar]|] eqn:En; [|discriminate].
    apply (H2 t n); [exists ar; exact En|]. apply find_index_some with (d := no_vec) in E as [_ E]. now apply mem_in.
  - exact H0.
  - intros t E. simpl. apply Ht. unfold tprio. rewrite E. reflexivity.
Qed.
(** A handler has open locks only on resources its task lists, each at most once. *)
Theorem C70_open_locks (s : mach B) f : mreach A m0 x0 s -> In f (m_stack s) ->
  NoDup (map (@e_res B) (f_ents f)) /\ forall r, In r (map (@e_res B) (f_ents f)) -> exists t, f_task f = Some t /\ l_uses A t r = true.
Proof.
  intros R I. apply in_split in I as (l1 & l2 & E). pose proof (sok_reach R) as H. rewrite E in H. destruct (proj1 (@sok_split _ _ _ _ _ H)) as (_ & H1 & H2). auto.
Qed.
End C70.
(** The example application of PropertiesApp.v (four handlers, priorities 2, 2, 3, 1): three handlers active at once, the bound is
    reached. *)
Example C70_case : length (used_prios ex_x) = 3 /\ exists s : mach (bp 3 (lapp_of ex_x)), bp_reach s /\ length (m_stack s) = 4.
Proof.
  split; [vm_compute; reflexivity|].
  destruct (run (@mstep (bp 3 (lapp_of ex_x)) (lapp_of ex_x)) (m_init (bp 3 (lapp_of ex_x)) breg0 breg0) [LTake 2; LTake 0; LTake 3]) as [s|] eqn:E; [|vm_compute in E; discriminate].
  exists s. split; [eexists; exact E|]. vm_compute in E. injection E as <-. reflexivity.
Qed.
Print Assumptions C70_one_handler_per_priority.
Print Assumptions C70_depth.
Print Assumptions C70_stack_bounded.
Print Assumptions C70_open_locks.
