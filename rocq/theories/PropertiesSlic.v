(** C91: software interrupts of the SLIC target. *)
From Coq Require Import Permutation.
From Verif Require Import Base LTS AppModel AppSpec AppProofs AppAnalysis AppChecks AppFinal AppRun AppStart AppStartProofs AppAcceptChecks PropertiesApp SlicModel.

Set Implicit Arguments.
Open Scope string_scope. Open Scope list_scope. Open Scope nat_scope.

(** The nonzero priorities of software tasks: [k] of them *)
Definition soft_priorities (items : list item) (ps : list nat) : Prop :=
  NoDup ps /\ forall p, In p ps <-> 0 < p /\ exists n sh lo, src_task items n KSoft p sh lo.
Definition is_generated (i : ident) : Prop := exists k, i = slic_disp k.

Section C91.
Context (disp : list ident) (items : list item) (x : expansion) (Hx : expand Slic disp items = Some x).
Let EA := @expand_accepted _ _ _ _ Hx.

Lemma fold_set n l : (forall d, In d (fold_left (fun l i => set_insert l (slic_disp i)) (seq l n) []) <-> exists k, l <= k < l + n /\ d = slic_disp k).
Proof.
  assert (G : forall n l acc d, In d (fold_left (fun l i => set_insert l (slic_disp i)) (seq l n) acc) <-> In d acc \/ exists k, l <= k < l + n /\ d = slic_disp k).
  { clear. induction n as [|n IH]; intros l acc d; cbn [seq fold_left]; [split; [auto|intros [I|(k & L & _)]; [auto|lia]]|]. rewrite IH, set_insert_in. split.
    - intros [[I|E]|(k & L & E)]; [auto| |]; right; [exists l|exists k]; (split; [lia|exact E]).
    - intros [I|(k & L & E)]; [auto|]. destruct (Nat.eq_dec k l) as [->|N]; [auto|]. right. exists k. split; [lia|exact E]. }
  intros d. rewrite G. simpl. tauto.
Qed.
Lemma slic_facts : disp = [] /\ (forall d, In d (ap_disp (x_app x)) <-> exists k, k < length (x_ints x) /\ d = slic_disp k) /\ length (ap_disp (x_app x)) = length (x_ints x).
Proof.
  destruct EA as [a H]. pose proof (ac_pre H) as E. cbn [preprocess] in E. pose proof (pd_disp (ac_parsed H)) as D. destruct (ap_disp a) as [|d0 l0] eqn:Ed; [|discriminate]. injection E as E.
  assert (L : length (x_ints x) = length (nz_prios a)) by (rewrite <- (proj1 (ints_ok H)); now rewrite map_length).
  split; [now symmetry|]. rewrite <- E. cbn [ap_disp]. rewrite L. split; [|apply slic_disps]. intros d. rewrite fold_set. split; intros (k & Hk & ->); exists k; (split; [lia|reflexivity]).
Qed.
Lemma all_used d : In d (ap_disp (x_app x)) -> exists p, In (p, d) (x_ints x).
Proof.
  destruct EA as [a H]. destruct slic_facts as (_ & _ & L). destruct (ints_ok H) as (_ & N & I). intros Hd.
  assert (J : In d (map snd (x_ints x))). { apply (@NoDup_length_incl _ _ (ap_disp (x_app x)) N); [rewrite map_length; lia|intros e; apply I|exact Hd]. }
  apply in_map_iff in J as ([p d'] & <- & J). eauto.
Qed.
Lemma int_of_in p i : int_of x p = Some i <-> In (p, i) (x_ints x).
Proof.
  destruct EA as [a H]. unfold int_of. split.
  - destruct (find _ _) as [[q j]|] eqn:F; [|discriminate]. intros [= <-]. apply find_some in F as [I E]. apply Nat.eqb_eq in E. simpl in *. now subst.
  - intros I. destruct (find _ _) as [[q j]|] eqn:F.
    + apply find_some in F as [J E]. apply Nat.eqb_eq in E. simpl in *. subst q. now rewrite (ints_fun H _ _ _ I J).
    + apply (find_none _ _ F) in I. simpl in I. rewrite Nat.eqb_refl in I. discriminate.
Qed.

(** No dispatchers are declared by the application. What is declared: the interrupts the hardware tasks are bound to, and one
    [__RTICDispatcher]k for each nonzero priority of a software task. *)
Theorem C91_declared_interrupts i ps : soft_priorities items ps ->
  disp = [] /\ (In i (swi x) <-> (exists n p sh lo, src_task items n (KHard i) p sh lo) \/ exists k, k < length ps /\ i = slic_disp k).
Proof.
  intros (N & S). destruct EA as [a H]. destruct slic_facts as (Ed & F & _). split; [exact Ed|].
  assert (L : length ps = length (x_ints x)).
  { rewrite <- (map_length fst (x_ints x)). apply Permutation_length. apply NoDup_Permutation; [exact N|rewrite (proj1 (ints_ok H)); apply nz_prios_NoDup|].
    intros p. rewrite S, <- (ints_prio H p), in_map_iff. split; [intros [d I]; now exists (p, d)|intros ([q d] & <- & I); simpl; eauto]. }
  unfold swi. rewrite in_app_iff, F, L, (acc_hw H), in_map_iff. split; (intros [I|I]; [left|right; exact I]).
  - destruct I as ((n, t) & <- & I). exists n, (hw_prio t), (a_shared (hw_args t)), (a_local (hw_args t)). apply (pd_task (ac_parsed H)). replace (mkArgs _ _) with (hw_args t) by now destruct (hw_args t). now apply T_hw.
  - destruct I as (n & p & sh & lo & T). apply (pd_task (ac_parsed H)) in T. inversion T as [|? t G|]; subst. exists (n, t). auto.
Qed.
(** Whatever the generated code names is declared. *)
Theorem C91_named_declared i : names x i -> In i (swi x).
Proof.
  destruct EA as [a H]. assert (G : forall p, In (p, i) (x_ints x) -> In i (swi x)).
  { intros p I. unfold swi. apply in_app_iff. right. apply (ints_ok H). apply in_map_iff. now exists (p, i). }
  intros [I|p I|n E|p I|I].
  - apply in_app_iff. auto.
  - unfold prio_calls in I. apply in_app_iff in I as [I|I]; apply in_map_iff in I as (t & [= <- <-] & I).
    + apply (G (fst t)). now destruct t.
    + apply in_app_iff. left. apply in_map_iff. eauto.
  - unfold task_pends in E. destruct (iget _ n) as [t|]; [|discriminate]. destruct (0 <? sw_prio t); [|discriminate]. apply int_of_in in E. eauto.
  - unfold dispatcher_pends in I. apply in_map_iff in I as (c & [= <- E] & I). destruct (0 <? fst c); [|discriminate]. apply int_of_in in E. eauto.
  - unfold handlers, vectors in I. rewrite map_app, !map_map in I. apply in_app_iff in I as [I|I]; apply in_map_iff in I as (t & <- & I); simpl.
    + apply in_app_iff. left. apply in_map_iff. eauto.
    + apply (G (fst t)). now destruct t.
Qed.
(** Every declared interrupt has a handler and is given a priority, that of the handler and of the tasks it runs. *)
Theorem C91_declared_handled i : In i (swi x) -> exists p ts, In (i, p, ts) (vectors x) /\ In (i, p) (prio_calls x) /\
  forall n, In n ts -> exists k sh lo, src_task items n k p sh lo.
Proof.
  destruct EA as [a H]. intros I. assert (G : exists p ts, In (i, p, ts) (vectors x) /\ In (i, p) (prio_calls x)).
  { unfold swi in I. apply in_app_iff in I as [I|I].
    - apply in_map_iff in I as ((n, t) & <- & I). exists (hw_prio t), [n]. split; apply in_app_iff; [left|right]; apply in_map_iff; exists (n, t); auto.
    - apply all_used in I as [p I]. exists p, (chan x p). split; apply in_app_iff; [right|left]; apply in_map_iff; exists (p, i); auto. }
  destruct G as (p & ts & V & C). exists p, ts. split; [exact V|]. split; [exact C|]. intros n M.
  destruct (@vec_runs _ _ _ _ _ H _ _ V M) as (k & sh & lo & T & _). simpl in T. eauto.
Qed.
(** [spawn] and the waker of a task pend the interrupt whose handler runs the task, as does its dispatcher when polling it. *)
Theorem C91_pended_runs n p sh lo : src_task items n KSoft p sh lo -> 0 < p -> exists i ts,
  task_pends x n = Some i /\ In (p, Some i) (dispatcher_pends x) /\ In (i, p, ts) (vectors x) /\ In n ts /\ In (i, p) (prio_calls x).
Proof.
  destruct EA as [a H]. intros T Hp. destruct (proj2 (ints_prio H p)) as [i I]; [split; [exact Hp|eauto]|]. exists i, (chan x p).
  assert (T' := T). apply (pd_task (ac_parsed H)) in T'. inversion T' as [| |? t G]; subst.
  assert (C : In n (chan x (sw_prio t))) by (apply (chan_in H); eauto).
  assert (Z : (0 <? sw_prio t) = true) by now apply Nat.ltb_lt.
  split; [|split; [|split; [|split; [exact C|]]]].
  - unfold task_pends. rewrite (acc_sw H), (in_iget _ _ _ (proj1 (proj2 (NoDup_app_inv _ _ (proj1 (proj2 (NoDup_app_inv _ _ (proj2 (proj1 (NoDup_cons_iff _ _) (wf_names (pd_wf (ac_parsed H))))))))))) G), Z. now apply int_of_in.
  - unfold chan in C. destruct (find _ _) as [c|] eqn:F; [|destruct C]. apply find_some in F as [F E]. apply Nat.eqb_eq in E. unfold dispatcher_pends. apply in_map_iff. exists c. rewrite E, Z. split; [|exact F]. do 2 f_equal. now apply int_of_in.
  - apply in_app_iff. right. apply in_map_iff. now exists (sw_prio t, i).
  - apply in_app_iff. left. apply in_map_iff. now exists (sw_prio t, i).
Qed.
(** Unless a hardware task is bound to a name of this form: no interrupt is declared twice, each has exactly one handler, and
    its priority is set exactly once. *)
Theorem C91_declared_once_partial : (forall n i p sh lo, src_task items n (KHard i) p sh lo -> ~ is_generated i) ->
  NoDup (swi x) /\ Permutation (swi x) (handlers x) /\ Permutation (swi x) (map fst (prio_calls x)).
Proof.
  intros F. destruct EA as [a H]. assert (B : binds_free Slic items x).
  { intros _ n i p sh lo T I. apply (F n i p sh lo T). apply (proj1 (proj2 slic_facts)) in I as (k & _ & ->). now exists k. }
  pose proof (vectors_NoDup H B) as N.
  assert (P1 : Permutation (ap_disp (x_app x)) (map snd (x_ints x))).
  { apply NoDup_Permutation; [exact (ac_disp H)|apply (ints_ok H)|]. intros d. split; [intros I; apply all_used in I as [p I]; apply in_map_iff; now exists (p, d)|apply (ints_ok H)]. }
  assert (E : handlers x = map (fun t => hw_binds (snd t)) (ap_hw (x_app x)) ++ map snd (x_ints x)) by (unfold handlers, vectors; now rewrite map_app, !map_map).
  assert (P2 : Permutation (swi x) (handlers x)) by (rewrite E; unfold swi; now apply Permutation_app_head).
  split; [apply (Permutation_NoDup (Permutation_sym P2) N)|]. split; [exact P2|]. rewrite P2, E. unfold prio_calls. rewrite map_app, !map_map. simpl. apply Permutation_app_comm.
Qed.
End C91.

(** When interrupts go on and tasks start, every handler's software interrupt has its priority and no other. *)
Theorem C53_slic_handlers_enabled disp items x s pc i p ts : expand Slic disp items = Some x ->
  (forall n i p sh lo, src_task items n (KHard i) p sh lo -> ~ is_generated i) ->
  sreach Slic x s -> t_pc s = SThread :: pc -> In (i, p, ts) (vectors x) -> In i (t_live s) /\ In (i, p) (t_prio s) /\ forall q, In (i, q) (t_prio s) -> q = p.
Proof.
  intros Hx F R E V. destruct (@C91_declared_once_partial _ _ _ Hx F) as (N0 & P & _). pose proof (Permutation_NoDup P N0) as N. unfold handlers in N. clear P N0.
  destruct (@expand_accepted _ _ _ _ Hx) as [a H]. destruct (started H R (or_intror (ex_intro _ pc E))) as (d & I & D & _).
  assert (K : In (i, p) (t_prio s)). { apply (si_prio I). destruct (proj1 (configured_route Slic x i p) (vec_configured H _ V (fun E => ltac:(discriminate E)))) as [k K]. exists k. apply D. apply (in_before H). right. left. exists i, p, k. auto. }
  split; [exact (si_live I _ _ K)|]. split; [exact K|]. intros q Q. apply (si_prio I) in Q as [k Q].
  assert (Q' : In (SConfigure i q k) (main_code Slic x)) by (rewrite (si_code I); apply in_app_iff; auto). rewrite (main_split Slic x) in Q'. apply in_app_iff in Q' as [Q'|[Q'|[Q'|[]]]]; try discriminate.
  apply (in_before H) in Q' as [Q'|[(i' & q' & k' & [= <- <- <-] & Q')|[Q'|[(n & r & Q' & _)|(n & r & Q' & _)]]]]; try discriminate.
  assert (Q2 : In (i, q) (configured Slic (x_app x) (x_ints x))) by (apply configured_route; eauto). apply (configured_vec H) in Q2 as [ts' V']. clear - N V V'.
  induction (vectors x) as [|w l IH]; [destruct V|]. simpl in N. inversion N as [|? ? N1 N2]; subst. destruct V as [->|V], V' as [W|V'].
  - congruence.
  - exfalso. apply N1. simpl. apply in_map_iff. exists (i, q, ts'). auto.
  - exfalso. subst w. apply N1. simpl. apply in_map_iff. exists (i, p, ts). auto.
  - auto.
Qed.

(** A hardware task may be bound to a generated name: two declarations and two handlers of one name. *)
Definition taken_items : list item := base [] [] ++ [hw "h" "__RTICDispatcher0" 1 [] None; sw "s" 1 [] None []].
Theorem C91_declared_once_refuted : exists items x, expand Slic [] items = Some x /\ ~ NoDup (swi x) /\ ~ NoDup (handlers x).
Proof.
  destruct (expand Slic [] taken_items) as [x|] eqn:E; [|vm_compute in E; discriminate]. exists taken_items, x. split; [exact E|]. vm_compute in E. injection E as <-.
  split; intros N; vm_compute in N; inversion N as [|? ? N1 N2]; apply N1; simpl; auto.
Qed.

(** Concrete case: two hardware tasks, software tasks of two nonzero priorities and one of priority 0. *)
Definition slic_items : list item :=
  base [] [] ++ [hw "h1" "Timer" 2 [] None; hw "h2" "Uart" 3 [] None; sw "s1" 1 [] None []; sw "s2" 4 [] None []; sw "s3" 1 [] None []; sw "s0" 0 [] None []].
Definition slic_x : expansion := match expand Slic [] slic_items with Some x => x | None => mkX (mkApp [] ("", []) None [] [] [] []) (mkAna [] [] [] [] [] []) [] end.
Example C91_case : expand Slic [] slic_items = Some slic_x /\ soft_priorities slic_items [1; 4] /\
  (forall n i p sh lo, src_task slic_items n (KHard i) p sh lo -> ~ is_generated i) /\
  swi slic_x = ["Timer"; "Uart"; "__RTICDispatcher0"; "__RTICDispatcher1"] /\
  prio_calls slic_x = [("__RTICDispatcher0", 1); ("__RTICDispatcher1", 4); ("Timer", 2); ("Uart", 3)] /\
  task_pends slic_x "s3" = Some "__RTICDispatcher0" /\ task_pends slic_x "s0" = None /\
  dispatcher_pends slic_x = [(1, Some "__RTICDispatcher0"); (4, Some "__RTICDispatcher1"); (0, None)].
Proof.
  split; [vm_compute; reflexivity|]. split; [|split].
  - split; [repeat constructor; simpl; intuition lia|]. intros p. split.
    + intros [<-|[<-|[]]]; (split; [lia|]).
      * exists "s1", [], []. exact (S_soft slic_items "s1" (mkRaw None (Some 1) (Some []) None None []) ltac:(in_tac) eq_refl).
      * exists "s2", [], []. exact (S_soft slic_items "s2" (mkRaw None (Some 4) (Some []) None None []) ltac:(in_tac) eq_refl).
    + intros (Hp & n & sh & lo & T). inversion T as [| |? r I E]; subst. unfold slic_items, base in I. simpl in I. repeat (destruct I as [I|I]; [inversion I; subst; simpl in *; first [discriminate|lia|auto]|]). destruct I.
  - intros n i p sh lo T (k & ->). inversion T as [|? r b I E|]; subst. unfold slic_items, base in I. simpl in I. repeat (destruct I as [I|I]; [inversion I; subst; simpl in E; discriminate E|]). destruct I.
  - vm_compute. auto.
Qed.
Print Assumptions C91_declared_interrupts.
Print Assumptions C91_named_declared.
Print Assumptions C91_declared_handled.
Print Assumptions C91_pended_runs.
Print Assumptions C91_declared_once_partial.
Print Assumptions C91_declared_once_refuted.
Print Assumptions C53_slic_handlers_enabled.
