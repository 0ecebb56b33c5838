(** Property theorems about the async executor, spawn and the dispatcher (C14-C17).
    Vocabulary: ExecSpec.v.  [xreach zero tasks s]: [s] is reached from the initial state by some schedule of
    any number of contexts that spawn and wake, and of the dispatcher (priority 0 if [zero]) of [tasks], one
    atomic access at a time. *)
From Verif Require Import Base LTS ExecModel ExecSpec ExecProofs ExecProgress.
Set Implicit Arguments.

Section Exec.
Context {V : Type} (zero : bool) (tasks : list nat).
Implicit Types (s : @ex V) (t c id : nat) (v : V).
Notation step := (@xstep V zero tasks).

(** * C14 One live instance *)
(** In every history the instances of each task follow one another, each with the arguments of its own spawn. *)
Theorem C14_instances_do_not_overlap :
  forall s t, xreach zero tasks s -> exists o, lives t (elog s) o.
Proof. intros s t Hr. destruct (HInv_reach Hr t) as (o & H & _). eauto. Qed.

(** A spawn while an instance is alive returns the arguments and changes nothing. *)
Theorem C14_spawn_while_live_is_refused :
  forall s c t v id x s', xreach zero tasks s -> lives t (elog s) (Some (id, x)) -> step s (LSpawn c t v) = Some s' ->
  elog s' = elog s ++ [XErr c t v] /\
  running s' = running s /\ pending s' = pending s /\ slot s' = slot s /\ irq s' = irq s /\ dp s' = dp s /\ ctx s' = ctx s.
Proof.
  intros s c t v id x s' Hr Hl Hs. destruct (HInv_reach Hr t) as (o & Ho & Hm). pose proof (lives_fun Hl Ho) as <-. destruct Hm as [Hm _].
  unfold xstep in Hs. destruct (ebug s); [discriminate|]. destruct (ctx s c); try discriminate. destruct (in_dec Nat.eq_dec t tasks); [|discriminate].
  injection Hs as <-. unfold do_spawn. rewrite Hm. simpl. repeat split.
Qed.

(** A spawn while none is alive is accepted, and runs to [Ok] on its own. *)
Theorem C14_spawn_when_none_live_is_accepted :
  forall s c t v, xreach zero tasks s -> lives t (elog s) None -> ebug s = false -> ctx s c = CIdle -> In t tasks ->
  exists s' id, run step s [LSpawn c t v; LCtx c; LCtx c; LCtx c] = Some s' /\
    elog s' = elog s ++ [XAlloc t id v; XOk c t id v] /\ slot s' t = FLive id v /\ pending s' t = true /\ running s' t = true /\ (zero = true \/ irq s' = true).
Proof.
  intros s c t v Hr Hl Hb Hc Ht. destruct (HInv_reach Hr t) as (o & Ho & Hm). pose proof (lives_fun Hl Ho) as <-. simpl in Hm.
  unfold run, xstep. rewrite Hb, Hc. destruct (in_dec Nat.eq_dec t tasks); [|tauto]. unfold do_spawn. rewrite Hm. simpl. rewrite Hb.
  unfold ctx_step. simpl. rewrite upd_same. simpl. rewrite Hb, upd_same. simpl. rewrite Hb, upd_same.
  eexists; exists (nid s). split; [reflexivity|]. simpl. rewrite !upd_same, <- app_assoc. repeat split. destruct zero; auto.
Qed.

(** Liveness of an instance is what [running] says. *)
Theorem C14_running_is_live :
  forall s t, xreach zero tasks s -> (running s t = true <-> exists id v, lives t (elog s) (Some (id, v))).
Proof.
  intros s t Hr. destruct (HInv_reach Hr t) as (o & Ho & Hm). split.
  - intros E. destruct o as [[id v]|]; [eauto|]. simpl in Hm. congruence.
  - intros (id & v & H). pose proof (lives_fun H Ho) as <-. exact (proj1 Hm).
Qed.

(** * C15 No successful spawn is lost *)
(** Once [spawn] has returned Ok its instance has been polled with the spawn's arguments, or it is stored, marked
    pending, and the dispatcher is pended, is in a pass still to reach it, is the endless priority-0 loop, or
    someone else is just about to pend it. *)
Theorem C15_spawn_is_polled_or_due :
  forall s c t id v, xreach zero tasks s -> ebug s = false -> In (XOk c t id v) (elog s) ->
  In (XPoll t id v) (elog s) \/
  (running s t = true /\ slot s t = FLive id v /\ pending s t = true /\
   (zero = true \/ irq s = true \/ In t (ahead (dp s)) \/ exists c', busy_with s c' t)).
Proof.
  intros s c t id v Hr Hb Hin. destruct (OInv_reach Hr) as (O1 & O2 & O3 & O4).
  destruct (O2 c t id v (or_intror Hin)) as [Ha Hn].
  destruct (PInv_reach Hr Hb _ _ _ Ha) as [X|[[c' X]|(X & Y & Z)]]; [now left|exfalso; exact (proj1 (Hn c') X)|].
  right. destruct Z as [[c' Z]|Z]; [exfalso; exact (proj2 (Hn c') Z)|].
  repeat split; auto. exact (E_pend (EInv_reach Hr) t Y Z).
Qed.

(** When the system has come to rest every accepted spawn has been polled. *)
Theorem C15_at_rest_all_spawns_polled :
  forall s c t id v, xreach zero tasks s -> ebug s = false -> In (XOk c t id v) (elog s) ->
  zero = false -> irq s = false -> dp s = DIdle -> (forall c', ctx s c' = CIdle) -> In (XPoll t id v) (elog s).
Proof.
  intros s c t id v Hr Hb Hin Hz Hi Hd Hc.
  destruct (C15_spawn_is_polled_or_due _ _ _ _ Hr Hb Hin) as [X|(_ & _ & _ & [X|[X|[X|[c' X]]]])]; auto; try congruence.
  - rewrite Hd in X. destruct X.
  - unfold busy_with in X. rewrite Hc in X. destruct X.
Qed.

(** A pass of the dispatcher (entered as on Cortex-M, or as on ESP32), however interleaved with other contexts, polls
    every task that is alive and marked pending when it starts. *)
Theorem C15_pass_polls_all_due :
  forall s l s1 s2 ls t id v, NoDup tasks -> xreach zero tasks s -> In t tasks ->
  running s t = true -> pending s t = true -> slot s t = FLive id v ->
  l = LDispatch \/ l = LAccept -> step s l = Some s1 -> run step s1 ls = Some s2 -> dp s2 = DIdle -> ebug s2 = false ->
  xemits s s2 (XPoll t id v).
Proof.
  intros s l s1 s2 ls t id v Hnd Hr Ht H1 H2 H3 Hl Hs Hrun Hd Hb.
  assert (Hr1 : xreach zero tasks s1) by (eapply reach_step; eauto).
  assert (Hq : queued s1 t id v).
  { unfold xstep in Hs. destruct (ebug s); [discriminate|]. destruct Hl as [-> | ->]; destruct (dp s); try discriminate.
    - destruct (zero || irq s)%bool; [|discriminate]. injection Hs as <-. repeat split; auto.
    - destruct (negb zero && irq s)%bool; [|discriminate]. injection Hs as <-. repeat split; auto. }
  destruct (@queued_run V zero tasks t id v ls Hnd _ _ Hr1 Hrun Hq) as [(_ & _ & _ & Q)|[X|X]]; [rewrite Hd in Q; destruct Q|congruence|].
  eapply xemits_right; eauto. eapply elog_step; eauto.
Qed.

(** Started passes end: whatever the polls return, the dispatcher, left alone, finishes its pass (or fails as
    in C17). *)
Theorem C15_pass_ends :
  forall s (answers : nat -> bool), xreach zero tasks s -> ebug s = false ->
  exists k s', run step s (map (fun i => LDisp (answers i)) (seq 0 k)) = Some s' /\ (ebug s' = true \/ dp s' = DIdle).
Proof. intros s rs Hr Hb. eapply pass_ends; eauto. Qed.

(** A pended dispatcher that is not running can start, on Cortex-M and on ESP32. *)
Theorem C15_pended_dispatcher_starts :
  forall s, ebug s = false -> dp s = DIdle -> zero = true \/ irq s = true ->
  (exists s', step s LDispatch = Some s' /\ dp s' = DAt tasks) /\
  (zero = false -> exists s' s'', step s LAccept = Some s' /\ step s' (LDisp false) = Some s'' /\ dp s'' = DAt tasks /\ irq s'' = false).
Proof.
  intros s Hb Hd Hz. split.
  - unfold xstep. rewrite Hb, Hd. replace (zero || irq s)%bool with true; [eauto|].
    destruct Hz as [-> | ->]; [reflexivity|symmetry; apply orb_true_r].
  - intros Hz0. destruct Hz as [Hz|Hz]; [congruence|]. eexists. eexists. unfold xstep at 1. rewrite Hb, Hd, Hz0, Hz. simpl. split; [reflexivity|].
    unfold xstep. simpl. rewrite Hb. split; [reflexivity|]. split; reflexivity.
Qed.

(** ESP32: the handler clears its own pend bit after it was entered.  A wake or spawn that pends it in between is not
    lost: every task due at that moment is still to be polled in this pass. *)
Theorem C16_unpend_loses_nothing :
  forall s ts r s' t, xreach zero tasks s -> dp s = DEnter ts -> step s (LDisp r) = Some s' ->
  running s t = true -> pending s t = true -> irq s' = false /\ pending s' t = true /\ In t (ahead (dp s')).
Proof.
  intros s ts r s' t Hr Hd Hs Hrn Hp. pose proof (E_enter (EInv_reach Hr) Hd) as ->. unfold xstep in Hs. destruct (ebug s); [discriminate|].
  simpl in Hs. unfold disp_step in Hs. rewrite Hd in Hs. injection Hs as <-. simpl. repeat split; auto. exact (E_run (EInv_reach Hr) t Hrn).
Qed.

(** * C16 No lost wake *)
(** After a waker call has started, until the task is polled, it stays marked; and while it is alive the
    dispatcher is pended, is in a pass still to reach it, is the endless loop, or is about to be pended. *)
Theorem C16_wake_stays_until_polled :
  forall s c t s1 ls s2, xreach zero tasks s -> step s (LWake c t) = Some s1 -> run step s1 ls = Some s2 -> ebug s2 = false ->
  (exists id v, xemits s1 s2 (XPoll t id v)) \/
  (pending s2 t = true /\
   (running s2 t = true -> zero = true \/ irq s2 = true \/ In t (ahead (dp s2)) \/ exists c', busy_with s2 c' t)).
Proof.
  intros s c t s1 ls s2 Hr Hs Hrun Hb.
  assert (Hp : pending s1 t = true).
  { unfold xstep in Hs. destruct (ebug s); [discriminate|]. destruct (ctx s c); try discriminate. destruct (in_dec Nat.eq_dec t tasks); [|discriminate].
    injection Hs as <-. simpl. apply upd_same. }
  destruct (@pending_run V zero tasks t ls _ _ Hrun Hp) as [X|[X|X]]; [|congruence|now left].
  right. split; [exact X|]. intros Hrn. refine (E_pend (EInv_reach _) t Hrn X).
  eapply reach_trans; [eapply reach_step; eauto|]. exists ls. exact Hrun.
Qed.

(** When the system has come to rest, the task has been polled since the wake or is not alive. *)
Theorem C16_at_rest_polled_since_wake :
  forall s c t s1 ls s2, xreach zero tasks s -> step s (LWake c t) = Some s1 -> run step s1 ls = Some s2 -> ebug s2 = false ->
  zero = false -> irq s2 = false -> dp s2 = DIdle -> (forall c', ctx s2 c' = CIdle) ->
  (exists id v, xemits s1 s2 (XPoll t id v)) \/ forall id v, ~ lives t (elog s2) (Some (id, v)).
Proof.
  intros s c t s1 ls s2 Hr Hs Hrun Hb Hz Hi Hd Hc.
  assert (Hr2 : xreach zero tasks s2) by (eapply reach_trans; [eapply reach_step; eauto|]; exists ls; exact Hrun).
  destruct (C16_wake_stays_until_polled _ _ _ Hr Hs Hrun Hb) as [X|[Hp X]]; [now left|]. right. intros id v Hl.
  assert (Hrn : running s2 t = true) by (apply C14_running_is_live; eauto).
  destruct (X Hrn) as [Y|[Y|[Y|[c' Y]]]]; try congruence.
  - rewrite Hd in Y. destruct Y.
  - unfold busy_with in Y. rewrite Hc in Y. destruct Y.
Qed.

(** A wake before a pass (even of a task woken during its own poll, which marks it for the next pass) is answered
    by that pass. *)
Theorem C16_next_pass_polls_woken :
  forall s c t id v s1 ls1 s2 l s3 ls2 s4, NoDup tasks -> xreach zero tasks s -> step s (LWake c t) = Some s1 -> run step s1 ls1 = Some s2 ->
  running s2 t = true -> slot s2 t = FLive id v -> l = LDispatch \/ l = LAccept -> step s2 l = Some s3 -> run step s3 ls2 = Some s4 -> dp s4 = DIdle -> ebug s4 = false ->
  exists id' v', xemits s1 s4 (XPoll t id' v').
Proof.
  intros s c t id v s1 ls1 s2 l s3 ls2 s4 Hnd Hr Hs Hr1 Hrun Hsl Hl Hd Hr2 Hi Hb.
  assert (Hb2 : ebug s2 = false) by (eapply bug_stuck; eauto).
  assert (Hx2 : xreach zero tasks s2) by (eapply reach_trans; [eapply reach_step; eauto|]; exists ls1; exact Hr1).
  assert (Hg : exists es, elog s4 = elog s2 ++ es).
  { apply elog_step in Hd as [e1 E1]. apply elog_run in Hr2 as [e2 E2]. exists (e1 ++ e2). now rewrite E2, E1, app_assoc. }
  destruct (C16_wake_stays_until_polled _ _ _ Hr Hs Hr1 Hb2) as [(i & x & X)|[Hp _]].
  - exists i, x. eapply xemits_left; eauto.
  - exists id, v. assert (Ht : In t tasks) by (exact (E_run (EInv_reach Hx2) t Hrun)).
    eapply xemits_right; [eapply elog_run; eauto|]. eapply C15_pass_polls_all_due; eauto.
Qed.

(** * C17 Only live futures are polled *)
(** Every poll is of the instance alive at that moment (so never of one that has completed), by C14's history.
    The executor can reach for a slot without a live future only while some context is between reserving the
    executor and storing the new future, with a wake left over from before. *)
Theorem C17_bad_poll_only_in_window_partial :
  forall s l s', xreach zero tasks s -> step s l = Some s' -> ebug s' = true ->
  exists c t, in_window s c t /\ pending s t = true /\ exists ts r, dp s = DChk t ts /\ l = LDisp r.
Proof.
  intros s l s' Hr Hs Hb. destruct (@bug_window V zero tasks s l _ (EInv_reach Hr) Hs Hb) as (c & t & ts & r & H1 & H2 & H3 & H4). exists c, t. eauto 8.
Qed.

(** If the dispatcher never takes a step while another context is in that window (spawns only from the same or
    higher priorities, or from critical sections), it never happens. *)
Theorem C17_no_bad_poll_partial :
  forall s, greach step (fun s l => match l with LDisp _ => forall c t, ~ in_window s c t | _ => True end) ex_new s -> ebug s = false.
Proof.
  intros s Hg. enough (EInv zero tasks s /\ ebug s = false) by tauto. revert s Hg.
  refine (@greach_inv _ _ step _ (fun s => EInv zero tasks s /\ ebug s = false) ex_new _ _).
  - split; [apply EInv_new|reflexivity].
  - intros s l s' [HE Hb] HG Hs. split; [eapply EInv_step; eauto|]. destruct (ebug s') eqn:E; [|reflexivity].
    destruct (@bug_window V zero tasks s l _ HE Hs E) as (c & t & ts & r & H1 & -> & H3 & _). elim (HG c t H3).
Qed.

(** Every poll in every history, with or without the condition, is of a live future. *)
Theorem C17_polls_are_of_live_instances_partial :
  forall s t id v l1 l2, xreach zero tasks s -> elog s = l1 ++ XPoll t id v :: l2 -> lives t l1 (Some (id, v)).
Proof.
  intros s t id v l1 l2 Hr E. destruct (HInv_reach Hr t) as (o & Ho & _). rewrite E in Ho. clear Hr E s.
  revert o Ho. induction l2 as [|e l2 IH] using rev_ind; intros o Ho.
  - inversion Ho as [F|? ? ? G F|? ? ? ? ? G F|? ? ? G F|? ? ? G F|? ? ? Ge G F];
      try (symmetry in F; apply app_eq_nil in F as [_ F]; discriminate);
      apply app_inj_tail in F as [-> F]; try discriminate; try (injection F as -> ->); try (injection F as ->); auto.
    subst. simpl in Ge. congruence.
  - rewrite app_comm_cons, app_assoc in Ho.
    inversion Ho as [F|? ? ? G F|? ? ? ? ? G F|? ? ? G F|? ? ? G F|? ? ? Ge G F];
      try (symmetry in F; apply app_eq_nil in F as [_ F]; discriminate);
      apply app_inj_tail in F as [-> F]; eauto.
Qed.
End Exec.

Print Assumptions C14_instances_do_not_overlap.
Print Assumptions C14_spawn_while_live_is_refused.
Print Assumptions C14_spawn_when_none_live_is_accepted.
Print Assumptions C14_running_is_live.
Print Assumptions C15_spawn_is_polled_or_due.
Print Assumptions C15_at_rest_all_spawns_polled.
Print Assumptions C15_pass_polls_all_due.
Print Assumptions C15_pass_ends.
Print Assumptions C15_pended_dispatcher_starts.
Print Assumptions C16_unpend_loses_nothing.
Print Assumptions C16_wake_stays_until_polled.
Print Assumptions C16_at_rest_polled_since_wake.
Print Assumptions C16_next_pass_polls_woken.
Print Assumptions C17_bad_poll_only_in_window_partial.
Print Assumptions C17_no_bad_poll_partial.
Print Assumptions C17_polls_are_of_live_instances_partial.

(** * Concrete cases *)
(** Two tasks; 1 is spawned, refused a second time, polled twice (woken during its first poll), ends, and is
    spawned again. *)
Example C14_case : exists s : @ex nat,
  run (xstep false [1; 2]) ex_new
    ([LSpawn 0 1 10; LCtx 0; LCtx 0; LCtx 0; LSpawn 5 1 11; LDispatch; LDisp false; LDisp false; LWake 5 1; LCtx 5; LDisp false; LDisp false; LDisp false] ++
     [LDispatch; LDisp false; LDisp false; LDisp true; LDisp true; LDisp false; LDisp false; LSpawn 0 1 12; LCtx 0]) = Some s /\
  elog s = [XAlloc 1 0 10; XOk 0 1 0 10; XErr 5 1 11; XPoll 1 0 10; XWoke 5 1; XPoll 1 0 10; XEnd 1 0; XAlloc 1 1 12] /\
  dp s = DIdle /\ irq s = false /\ ebug s = false /\ running s 1 = true.
Proof. eexists. split; [vm_compute; reflexivity|]. vm_compute. repeat split. Qed.

(** A guarded schedule (as in C17_no_bad_poll) with an actual poll. *)
Example C17_case : exists s : @ex nat,
  greach (xstep false [1; 2]) (fun s l => match l with LDisp _ => forall c t, ~ in_window s c t | _ => True end) ex_new s /\
  elog s = [XAlloc 1 0 10; XOk 0 1 0 10; XPoll 1 0 10].
Proof.
  eexists. split.
  - exists [LSpawn 0 1 10; LCtx 0; LCtx 0; LCtx 0; LDispatch; LDisp false; LDisp false]. split; [|vm_compute; reflexivity].
    vm_compute. repeat (split; [try exact I; intros [|c] t (i & x & H); discriminate|]). exact I.
  - reflexivity.
Qed.

(** * C17 fails without the condition: task 1 is woken a last time while completing, so its pending flag stays
    set; a low-priority spawn reserves the executor and is preempted by the dispatcher (pended for task 2)
    before it stores the new future: the dispatcher polls the finished future. *)
Theorem C17_polled_after_completion_refuted :
  exists s s' : @ex nat, xreach false [1; 2] s /\ xstep false [1; 2] s (LDisp false) = Some s' /\
    ebug s' = true /\ (exists ts, dp s = DChk 1 ts) /\ slot s 1 = FDone 0 /\ In (XEnd 1 0) (elog s).
Proof.
  destruct (run (xstep false [1; 2]) (@ex_new nat)
    [LSpawn 0 1 10; LCtx 0; LCtx 0; LCtx 0; LDispatch; LDisp false; LDisp false; LWake 5 1; LCtx 5; LDisp true; LDisp true; LDisp false; LDisp false;
     LSpawn 0 1 12; LDispatch; LDisp false]) as [s|] eqn:E; [|vm_compute in E; discriminate].
  exists s. assert (R : xreach false [1; 2] s) by (eexists; exact E). vm_compute in E. injection E as <-. eexists. split; [exact R|].
  split; [vm_compute; reflexivity|]. vm_compute. repeat split; eauto 8.
Qed.
Print Assumptions C17_polled_after_completion_refuted.

(** ESP32: task 1 is suspended; task 2 is woken after the handler was entered and before it unpends; both are polled
    in this pass and nothing is left pended. *)
Example C16_unpend_case : exists s s', 
  xreach false [1; 2] s /\ dp s = DEnter [1; 2] /\ irq s = true /\ running s 2 = true /\ pending s 2 = true /\
  run (xstep false [1; 2]) s ([LDisp false; LDisp false; LDisp false; LDisp false; LDisp false; LDisp false; LDisp false; LDisp false]) = Some s' /\
  dp s' = DIdle /\ irq s' = false /\ ebug s' = false /\ xemits s s' (XPoll 1 0 10) /\ xemits s s' (XPoll 2 1 20).
Proof.
  pose (ls := [LSpawn 0 1 10; LCtx 0; LCtx 0; LCtx 0; LSpawn 0 2 20; LCtx 0; LCtx 0; LCtx 0; LDispatch] ++ repeat (LDisp false) 7
              ++ [LWake 3 1; LCtx 3; LAccept; LWake 3 2; LCtx 3]).
  destruct (run (xstep false [1; 2]) ex_new ls) as [s|] eqn:E; [|vm_compute in E; discriminate].
  destruct (run (xstep false [1; 2]) s (repeat (LDisp false) 8)) as [s'|] eqn:E'; [|vm_compute in E; injection E as <-; vm_compute in E'; discriminate].
  exists s, s'. split; [exists ls; exact E|]. split; [vm_compute in E; injection E as <-; reflexivity|].
  split; [vm_compute in E; injection E as <-; reflexivity|]. split; [vm_compute in E; injection E as <-; reflexivity|].
  split; [vm_compute in E; injection E as <-; reflexivity|]. split; [exact E'|].
  vm_compute in E; injection E as <-. vm_compute in E'. injection E' as <-. repeat (split; [reflexivity|]).
  split; (eexists; split; [vm_compute; match goal with |- ?a :: ?b :: ?c :: ?d :: ?e :: ?f :: ?g :: ?h :: ?r = _ => idtac end; reflexivity|]); simpl; auto.
Qed.
