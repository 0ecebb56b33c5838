(** C62: end-to-end race freedom on the targets without BASEPRI: Cortex-M0/M23 (interrupt source masking) and ESP32-C3/C6 (threshold). *)
From Coq Require Import NArith.
From Verif Require Import Base LTS AppModel AppSpec AppProofs AppAnalysis AppChecks AppFinal AppRun AppStart AppStartProofs LockModel LockSpec LockProofs LockBackends LockBackendProofs LockSourceProofs LockFinal PropertiesLock PropertiesApp.
Set Implicit Arguments.
Open Scope string_scope. Open Scope list_scope. Open Scope nat_scope.

(** Resource number [k] is resource [r] of the source. *)
Definition is_resource (x : expansion) (k : nat) (r : ident) : Prop := exists sr, nth_error (ap_shared (x_app x)) k = Some (r, sr).

(** What having preempted means for lock-free resources, on any backend where only higher priorities preempt. *)
Lemma lock_free_gen b disp items x (A : lapp) (B : backend) (s : mach B) above f below g r sr t n t' n' p ac p' ac' :
  expand b disp items = Some x -> (forall t, tprio A t = tprio (lapp_of x) t) -> 
  (lprio A (f_line f) < lprio A (f_line g)) -> m_stack s = above ++ f :: below -> In g above ->
  shared_field items r sr -> sr_lock_free sr = true -> is_number x t n -> is_number x t' n' -> uses_shared items n p r ac -> uses_shared items n' p' r ac' -> may_run A f t -> may_run A g t' -> False.
Proof.
  intros Hx Ht Q E G F L (ar & N) (ar' & N') U U' M M'. unfold may_run in M, M'. rewrite <- M, <- M' in Q.
  destruct (@expand_accepted _ _ _ _ Hx) as [a H]. destruct (run_task_in H _ N) as (k & q & T). destruct (run_task_in H _ N') as (k' & q' & T').
  pose proof (run_tprio H _ N T) as P1. pose proof (run_tprio H _ N' T') as P2. rewrite <- Ht in P1, P2. unfold tprio in P1, P2. rewrite P1, P2 in Q.
  assert (q = p). { apply (uses_shared_iff H) in U as (k0 & ar0 & T0 & _). now destruct (task_names_unique (pd_wf (ac_parsed H)) T T0) as (_ & -> & _). }
  assert (q' = p'). { apply (uses_shared_iff H) in U' as (k0 & ar0 & T0 & _). now destruct (task_names_unique (pd_wf (ac_parsed H)) T' T0) as (_ & -> & _). }
  subst. pose proof (proj2 (lock_free_ok H F L) _ _ _ _ _ _ U U'). lia.
Qed.

(** Whatever the backend, handlers on the stack have rising priorities. *)
Lemma stack_rising (B : backend) (A : lapp) m0 x0 (s : mach B) : mreach A m0 x0 s -> forall above f below g, m_stack s = above ++ f :: below -> In g above -> lprio A (f_line f) < lprio A (f_line g).
Proof.
  intros R. refine (@reach_inv _ _ (@mstep B A) (fun s => forall above f below g, m_stack s = above ++ f :: below -> In g above -> lprio A (f_line f) < lprio A (f_line g)) _ _ _ s R).
  - intros [|u [|v above]] f below g E G; simpl in E; [destruct G|discriminate|discriminate].
  - clear s R. intros s l s' I E. unfold mstep in E. destruct (m_stack s) as [|f fs] eqn:Es; [discriminate|].
    assert (Sub : forall f', f_line f' = f_line f -> m_stack s' = f' :: fs -> forall above h below g, m_stack s' = above ++ h :: below -> In g above -> lprio A (f_line h) < lprio A (f_line g)).
    { intros f' L Ef [|u above] h below g E' G; [destruct G|]. rewrite Ef in E'. simpl in E'. injection E' as -> E'. destruct G as [<-|G].
      - rewrite L. refine (I (f :: above) h below f _ (or_introl eq_refl)). now rewrite E'.
      - refine (I (f :: above) h below g _ (or_intror G)). now rewrite E'. }
    destruct l as [i|t| |r| | |].
    + destruct (can_take A s i) eqn:C; [injection E as <-|discriminate]. cbn [m_stack]. unfold can_take in C. apply andb_prop in C as [_ C]. rewrite forallb_forall in C. rewrite Es in C.
      intros [|u above] h below g E' G; [destruct G|]. simpl in E'. injection E' as <- E'. destruct G as [<-|G].
      * cbn [f_line lprio]. apply Nat.ltb_lt. apply C. rewrite E'. apply in_app_iff. right. now left.
      * eapply I; eauto.
    + destruct (f_task f), (f_ents f); try discriminate. destruct (match l_line A t with Some _ => _ | None => _ end); [injection E as <-|discriminate]. now apply (Sub (set_task f (Some t))).
    + destruct (f_task f), (f_ents f); try discriminate. injection E as <-. now apply (Sub (set_task f None)).
    + destruct (f_task f); [|discriminate]. destruct (_ && _)%bool; [injection E as <-|discriminate]. eapply Sub; [|reflexivity]. reflexivity.
    + destruct (micro A (m_mask s) f) as [[m' f']|] eqn:Em; [injection E as <-|discriminate]. apply (Sub f'); [|reflexivity]. unfold micro in Em. destruct (f_ents f) as [|e es]; [discriminate|]. destruct (e_ph e); [|discriminate|]; destruct (nth_error _ _); injection Em as _ <-; reflexivity.
    + destruct (f_ents f) as [|e es]; [discriminate|]. destruct (e_ph e); try discriminate. injection E as <-. eapply Sub; [|reflexivity]. reflexivity.
    + destruct (f_line f), (f_task f), (f_ents f), fs as [|f2 fs]; try discriminate. injection E as <-. cbn [m_stack]. intros above h below g E' G. refine (I (f :: above) h below g _ (or_intror G)). now rewrite E'.
Qed.

(** * Source masking *)
Section Source.
(** [num]: the interrupt numbers of the device; [words]: the initial contents of its enable registers, all needed ones existing. *)
Context (disp : list ident) (items : list item) (x : expansion) (Hx : expand (Cortex 2) disp items = Some x).
Context (Hclash : forall r s, shared_field items r s -> sr_lock_free s = false -> no_clash items r).
Context (num : ident -> nat) (Hnum : forall v w, In v (vectors x) -> In w (vectors x) -> is_exception (fst (fst v)) = false -> is_exception (fst (fst w)) = false -> num (fst (fst v)) = num (fst (fst w)) -> fst (fst v) = fst (fst w)).
Definition vname (i : nat) : ident := fst (fst (nth i (vectors x) no_vec)).
Definition irqn (i : nat) : nat := num (vname i).
Definition exc (i : nat) : bool := is_exception (vname i).
Context (m0 : nreg) (Hlen : chunks (l_lines (lapp_of x)) irqn exc <= length (iser m0)).
Lemma src_inj i j : In i (l_lines (lapp_of x)) -> In j (l_lines (lapp_of x)) -> exc i = false -> exc j = false -> irqn i = irqn j -> i = j.
Proof.
  intros I J Ei Ej E. cbn [lapp_of l_lines] in I, J. apply in_seq in I, J. apply Hnum in E; auto; [|apply nth_In; lia|apply nth_In; lia].
  pose proof (@C11_handlers_distinct _ disp items x Hx) as N; specialize (N ltac:(discriminate)). apply (proj1 (NoDup_nth _ "") N); rewrite ?map_length; try lia.
  unfold vname in E. pose proof (map_nth (fun v : ident * nat * list ident => fst (fst v)) (vectors x) no_vec) as Mn. cbn [no_vec fst] in Mn. rewrite !Mn. exact E.
Qed.
Lemma src_ok : app_ok (lapp_of x) 4. Proof. change 4 with (2 ^ 2). eapply end_ok; [exact Hx|exact Hclash]. Qed.
(** A shared resource that no task bound to a core exception lists, or that some task of priority 4 lists. *)
Theorem C62_source_mutual_exclusion_partial (s : mach (nv (lapp_of x) irqn exc)) k r : nv_reach m0 s -> is_resource x k r ->
  (forall n i p sh lo ac, src_task items n (KHard i) p sh lo -> In (r, ac) sh -> is_exception i = false) \/ (exists n ac, uses_shared items n 4 r ac) -> excl_on (lapp_of x) k s.
Proof.
  intros R [sr Er] C0. destruct (sr_lock_free sr) eqn:Ef.
  { refine (C04_source_mutual_exclusion src_ok src_inj Hlen (s := s) (r := k) R _). intros t i U _. exfalso. cbn [lapp_of l_uses] in U. destruct (nth_error (run_tasks x) t) as [[n ar]|]; [|discriminate]. rewrite Er, Ef in U. discriminate. }
  destruct C0 as [C|(n & ac & U)].
  - refine (C04_source_mutual_exclusion src_ok src_inj Hlen (s := s) (r := k) R _). intros t i U L. destruct (@expand_accepted _ _ _ _ Hx) as [a H].
    cbn [lapp_of l_uses l_line] in U, L. destruct (nth_error (run_tasks x) t) as [[n ar]|] eqn:Et; [|discriminate]. rewrite Er in U. apply andb_prop in U as [_ U]. destruct (iget (a_shared ar) r) as [[|]|] eqn:G; try discriminate. apply iget_in in G.
    apply find_index_some with (d := no_vec) in L as [L1 M]. apply mem_in in M. pose proof (nth_In _ no_vec L1) as V. unfold exc, vname. destruct (@vec_runs _ _ _ _ _ H _ _ V M) as (k1 & sh1 & lo1 & T1 & C1).
    destruct (run_task_in H _ Et) as (k2 & p2 & T2). assert (T3 := T1). apply (pd_task (ac_parsed H)) in T3. destruct (task_names_unique (pd_wf (ac_parsed H)) T2 T3) as (-> & _ & ->).
    destruct C1 as [[-> _]|(-> & C1 & C2)]; [exact (C _ _ _ _ _ _ T1 G)|].
    pose proof (@C11_dispatchers_are_interrupts _ disp items x Hx _ _ 2 eq_refl C2) as D. destruct (is_exception _) eqn:X; [|reflexivity]. exfalso. apply D. unfold is_exception in X. apply mem_in in X. simpl in X. simpl. tauto.
  - destruct (@expand_accepted _ _ _ _ Hx) as [a H]. refine (C05_exceptions_excluded_partial src_ok src_inj Hlen (s := s) (r := k) R _). cbn [lapp_of l_ceil]. rewrite Er.
    apply nth_error_In in Er. rewrite (acc_shared H) in Er. apply (pd_shared (ac_parsed H)) in Er.
    destruct (@ceiling_no_clash _ _ _ _ _ H r (Hclash Er Ef)) as [_ Lc]; [eauto|]. exact (Lc _ _ _ U).
Qed.
End Source.

(** * ESP32 *)
(** The application of [lapp_of], with locks nested only in the order of rising ceilings. *)
Definition rising (x : expansion) : lapp :=
  let A := lapp_of x in mkL (l_lines A) (l_prio A) (l_line A) (l_uses A) (l_ceil A) Nat.leb.
Section Esp.
Context (b : bkind) (disp : list ident) (items : list item) (x : expansion) (Hx : expand b disp items = Some x) (Hb : b = Esp32c3 \/ b = Esp32c6).
Context (Hclash : forall r s, shared_field items r s -> sr_lock_free s = false -> no_clash items r) (Hmany : b = Esp32c6 -> length (vectors x) <= 12).
Lemma esp_ok : app_ok (rising x) 15.
Proof.
  destruct (@expand_accepted _ _ _ _ Hx) as [a H]. change (app_ok (lapp_of x) 15). apply (lapp_ok H); [|exact Hclash].
  intros v V. pose proof (ac_prio H) as Q. rewrite forallb_forall in Q. assert (C := vec_configured H _ V Hmany). apply Q in C. destruct Hb; subst b; simpl in C; apply andb_prop in C as [C _]; apply Nat.ltb_lt in C; lia.
Qed.
Lemma esp_nest c c' : l_nest (rising x) c c' = true -> c <= c'. Proof. apply Nat.leb_le. Qed.
Theorem C62_esp_mutual_exclusion_partial (s : mach (th (rising x))) : th_reach s -> mutual_exclusion (rising x) s.
Proof. exact (C06_threshold_mutual_exclusion_partial esp_ok esp_nest (s := s)). Qed.
End Esp.

(** Lock-free resources, on every target: no two handlers, one having preempted the other, run tasks that list the same one. *)
Theorem C62_lock_free_exclusive b disp items x (B : backend) m0 x0 (s : mach B) above f below g r sr t n t' n' p ac p' ac' :
  expand b disp items = Some x -> mreach (lapp_of x) m0 x0 s -> m_stack s = above ++ f :: below -> In g above ->
  shared_field items r sr -> sr_lock_free sr = true -> is_number x t n -> is_number x t' n' -> uses_shared items n p r ac -> uses_shared items n' p' r ac' -> may_run (lapp_of x) f t -> may_run (lapp_of x) g t' -> False.
Proof. intros Hx R E G. eapply (@lock_free_gen b disp items x (lapp_of x)); eauto. eapply stack_rising; eauto. Qed.

(** A Cortex-M0 application: [lo] (UART0, priority 1) and [hi] (UART1, priority 2) share [r]; interrupts 3 and 40. *)
Definition m0_items (i : ident) : list item := base [("r", mkSR 1 false)] [] ++ [hw "lo" "UART0" 1 [("r", Exclusive)] None; hw "hi" i 2 [("r", Exclusive)] None].
Definition m0_x (i : ident) : expansion := match expand (Cortex 2) [] (m0_items i) with Some x => x | None => ex_x end.
Definition m0_num (i : ident) : nat := if String.eqb i "UART0" then 3 else if String.eqb i "UART1" then 40 else 41 + String.length i.
Definition m0_reg : nreg := mkNr [8; 256]%N false.
Notation m0_back i := (nv (lapp_of (m0_x i)) (irqn (m0_x i) m0_num) (exc (m0_x i))).
Example C62_source_case : expand (Cortex 2) [] (m0_items "UART1") = Some (m0_x "UART1") /\ chunks (l_lines (lapp_of (m0_x "UART1"))) (irqn (m0_x "UART1") m0_num) (exc (m0_x "UART1")) = 2 /\
  (forall r s, shared_field (m0_items "UART1") r s -> sr_lock_free s = false -> no_clash (m0_items "UART1") r) /\ is_resource (m0_x "UART1") 0 "r" /\
  (forall n i p sh lo ac, src_task (m0_items "UART1") n (KHard i) p sh lo -> In ("r", ac) sh -> is_exception i = false) /\
  (forall v w, In v (vectors (m0_x "UART1")) -> In w (vectors (m0_x "UART1")) -> m0_num (fst (fst v)) = m0_num (fst (fst w)) -> fst (fst v) = fst (fst w)) /\
  exists s : mach (m0_back "UART1"), nv_reach m0_reg s /\ (exists f fs, m_stack s = f :: fs /\ holds f 0) /\ can_take (lapp_of (m0_x "UART1")) s 1 = false.
Proof.
  split; [vm_compute; reflexivity|]. split; [vm_compute; reflexivity|]. split; [intros r s (sn & fs & I & J) _; assert (r = "r") as ->; [simpl in I; repeat (destruct I as [I|I]; [try discriminate; injection I as <- <-; simpl in J; destruct J as [J|[]]; now injection J|]); destruct I|clear I J; no_clash_tac]|].
  split; [eexists; vm_compute; reflexivity|]. split.
  - intros n i p sh lo ac T _. remember (KHard i) as k. destruct T as [n sh lo T|n r b T E|n r T E]; try discriminate. injection Heqk as <-. simpl in T. repeat (destruct T as [T|T]; [try discriminate; injection T; intros; subst; simpl in E; injection E as <-; reflexivity|]). destruct T.
  - split; [intros v w V W E; vm_compute in V, W; destruct V as [<-|[<-|[]]], W as [<-|[<-|[]]]; try reflexivity; vm_compute in E; discriminate|]. destruct (@run_check (m0_back "UART1") (run (@mstep (m0_back "UART1") (lapp_of (m0_x "UART1"))) (m_init (m0_back "UART1") m0_reg m0_reg) [LTake 0; LStart 0; LLock 0; LMicro; LMicro; LMicro])
      (fun s => top1 s (fun f => holdsb f 0) && negb (can_take (lapp_of (m0_x "UART1")) s 1))) as (s & E & C); [vm_compute; reflexivity|].
    exists s. split; [eexists; exact E|]. clear E. apply andb_prop in C as [C1 C2]. apply negb_true_iff in C2. split; [|exact C2]. apply top1_spec in C1 as (f & fs & D & C1). exists f, fs. split; [exact D|exact (holdsb_spec _ _ C1)].
Qed.
(** The same with [hi] bound to SysTick: accepted, and both tasks get into the lock at once. *)
Theorem C62_source_mutual_exclusion_refuted : exists items x (num : ident -> nat) m0 (s : mach (nv (lapp_of x) (irqn x num) (exc x))), expand (Cortex 2) [] items = Some x /\
  chunks (l_lines (lapp_of x)) (irqn x num) (exc x) <= length (iser m0) /\ nv_reach m0 s /\ (exists f g below r, m_stack s = g :: f :: below /\ holds f r /\ holds g r) /\ ~ mutual_exclusion (lapp_of x) s.
Proof.
  exists (m0_items "SysTick"), (m0_x "SysTick"), m0_num, m0_reg.
  destruct (@run_check (m0_back "SysTick") (run (@mstep (m0_back "SysTick") (lapp_of (m0_x "SysTick"))) (m_init (m0_back "SysTick") m0_reg m0_reg) [LTake 0; LStart 0; LLock 0; LMicro; LMicro; LTake 1; LStart 1; LLock 0; LMicro; LMicro])
    (fun s => top2 s (fun g f => holdsb f 0 && holdsb g 0))) as (s & E & C); [vm_compute; reflexivity|].
  exists s. split; [vm_compute; reflexivity|]. split; [vm_compute; lia|]. split; [eexists; exact E|]. clear E. apply top2_spec in C as (g & f & below & Es & C). apply andb_prop in C as [C1 C2]. apply holdsb_spec in C1, C2.
  split; [exists f, g, below, 0; auto|]. intros X. exact (two_holders X Es C1 C2).
Qed.

(** ESP32-C3: [a] (priority 1) and [c] (priority 3) share [hi]; [a] and [m] (priority 2) share [lo]. *)
Definition esp_items : list item := base [("lo", mkSR 1 false); ("hi", mkSR 2 false)] [] ++
  [hw "a" "UART0" 1 [("lo", Exclusive); ("hi", Exclusive)] None; hw "m" "UART1" 2 [("lo", Exclusive)] None; hw "c" "SPI2" 3 [("hi", Exclusive)] None].
Definition esp_x : expansion := match expand Esp32c3 [] esp_items with Some x => x | None => ex_x end.
Lemma esp_accepted : expand Esp32c3 [] esp_items = Some esp_x. Proof. vm_compute. reflexivity. Qed.
Example C62_esp_case : (forall r s, shared_field esp_items r s -> sr_lock_free s = false -> no_clash esp_items r) /\
  exists s : mach (th (rising esp_x)), th_reach s /\ (exists f fs, m_stack s = f :: fs /\ holds f 0 /\ holds f 1) /\ can_take (rising esp_x) s 2 = false.
Proof.
  split.
  - intros r s (sn & fs & I & J) _. assert (r = "lo" \/ r = "hi") as D. { simpl in I. repeat (destruct I as [I|I]; [try discriminate; injection I as <- <-; simpl in J; destruct J as [J|[J|[]]]; injection J as <- _; auto|]). destruct I. }
    clear I J. destruct D as [-> | ->]; no_clash_tac.
  - destruct (@run_check (th (rising esp_x)) (run (@mstep (th (rising esp_x)) (rising esp_x)) (m_init (th (rising esp_x)) treg0 treg0) [LTake 0; LStart 0; LLock 0; LMicro; LMicro; LLock 1; LMicro; LMicro])
      (fun s => top1 s (fun f => holdsb f 0 && holdsb f 1) && negb (can_take (rising esp_x) s 2))) as (s & E & C); [vm_compute; reflexivity|].
    exists s. split; [eexists; exact E|]. clear E. apply andb_prop in C as [C1 C2]. apply negb_true_iff in C2. split; [|exact C2]. apply top1_spec in C1 as (f & fs & D & C1). apply andb_prop in C1 as [C1 C3]. exists f, fs. split; [exact D|]. split; now apply holdsb_spec.
Qed.
(** [a] locks [lo] inside [hi]; [c] then gets into [hi] too. *)
Theorem C62_esp_mutual_exclusion_refuted : exists items x (s : mach (th (lapp_of x))), expand Esp32c3 [] items = Some x /\ th_reach s /\
  (exists f g below r, m_stack s = g :: f :: below /\ holds f r /\ holds g r) /\ ~ mutual_exclusion (lapp_of x) s.
Proof.
  exists esp_items, esp_x.
  destruct (@run_check (th (lapp_of esp_x)) (run (@mstep (th (lapp_of esp_x)) (lapp_of esp_x)) (m_init (th (lapp_of esp_x)) treg0 treg0) [LTake 0; LStart 0; LLock 1; LMicro; LMicro; LLock 0; LMicro; LMicro; LTake 2; LStart 2; LLock 1; LMicro; LMicro])
    (fun s => top2 s (fun g f => holdsb f 1 && holdsb g 1))) as (s & E & C); [vm_compute; reflexivity|].
  exists s. split; [exact esp_accepted|]. split; [eexists; exact E|]. clear E. apply top2_spec in C as (g & f & below & Es & C). apply andb_prop in C as [C1 C2]. apply holdsb_spec in C1, C2.
  split; [exists f, g, below, 1; auto|]. intros X. exact (two_holders X Es C1 C2).
Qed.
Print Assumptions C62_source_mutual_exclusion_partial.
Print Assumptions C62_source_mutual_exclusion_refuted.
Print Assumptions C62_esp_mutual_exclusion_partial.
Print Assumptions C62_esp_mutual_exclusion_refuted.
Print Assumptions C62_lock_free_exclusive.
