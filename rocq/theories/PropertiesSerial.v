(** Property C77: every lock closure runs as if alone.
    Vocabulary: SerialSpec.v (histories of one variable); machine: LockAccess.v over LockModel.v. *)
From Coq Require Import NArith String.
From Verif Require Import Base LTS LockModel LockSpec LockProofs LockBackends LockBackendProofs LockSourceProofs LockFinal PropertiesLock.
From Verif Require Import AppModel AppSpec AppProofs AppAnalysis AppFinal AppRun PropertiesApp PropertiesEnd.
From Verif Require Import LockAccess SerialSpec LockAccessProofs.
Set Implicit Arguments.
Open Scope list_scope.

(** The history [l] of a variable of initial value [v]: whole closures one after the other, and at most one open closure
    at the end ([who] inside it), which has seen and left the value [now]. *)
Definition serial_history {V} (r : nat) (v : V) (l : list (event V)) (who : option (nat * nat)) (now : V) : Prop :=
  exists done v1, serial r v done v1 /\
    match who with
    | None => l = done /\ now = v1
    | Some (t, d) => exists body, l = done ++ mkEv r t d Enter :: body /\ accesses r t d v1 body now
    end.

(** Tasks that only add one: in every activation every closure on [r] reads the value, writes it plus one and returns. *)
Inductive inc_state := Out | In0 | In1 (v : nat) | In2.
Definition inc_next (s : inc_state) (a : act nat) : option inc_state :=
  match s, a with
  | Out, Enter => Some In0
  | In0, Read v => Some (In1 v)
  | In1 v, Write w => if w =? S v then Some In2 else None
  | In2, Exit => Some Out
  | _, _ => None
  end.
Definition by_ (t d : nat) (l : list (event nat)) : list (act nat) := map (@ev_act nat) (filter (fun e => (ev_task e =? t) && (ev_depth e =? d)) l).
Definition increments (r : nat) (l : list (event nat)) : Prop := forall t d, run inc_next Out (by_ t d (on r l)) <> None.
(** Completed closures on [r]. *)
Definition completed (r : nat) (l : list (event nat)) : nat :=
  List.length (filter (fun e => match ev_act e with Exit => true | _ => false end) (on r l)).

Section Generic.
Context (B : backend) (A : lapp) (V : Type) (m0 : bm B) (x0 : bs B) (val : nat -> V) (junk : nat -> nat -> V).
Context (r : nat) (Hex : forall s, mreach A m0 x0 s -> excl_on A r s).

Lemma gen_serial s : reach (@astep B A V) (a_init B m0 x0 val junk) s ->
  (exists t f below above, m_stack (a_m s) = above ++ f :: below /\ holds f r /\ f_task f = Some t /\
     serial_history r (val r) (on r (a_log s)) (Some (t, List.length below)) (a_copy s (List.length below) r)) \/
  ((forall f, In f (m_stack (a_m s)) -> ~ holds f r) /\ serial_history r (val r) (on r (a_log s)) None (a_mem s r)).
Proof.
  intros R. destruct (@sinv_reach B A V m0 x0 val junk r Hex s R) as (done & v1 & S & I).
  destruct (who r (m_stack (a_m s))) as [[d [t|]]|] eqn:W; [| destruct I|].
  - left. destruct I as (body & v2 & I1 & I2 & I3).
    assert (X : exists above f below, m_stack (a_m s) = above ++ f :: below /\ holds f r /\ f_task f = Some t /\ List.length below = d).
    { clear -W. induction (m_stack (a_m s)) as [|f fs IH]; [discriminate|]. cbn [who] in W. destruct (inside f r) eqn:F.
      - injection W as W1 W2. exists [], f, fs. repeat split; auto. now apply inside_iff.
      - destruct (IH W) as (above & g & below & -> & H). exists (f :: above), g, below. split; [reflexivity|exact H]. }
    destruct X as (above & f & below & E & Hf & Ht & <-). exists t, f, below, above. repeat split; auto. exists done, v1. split; [exact S|]. exists body. split; [exact I1|]. now rewrite I3.
  - right. destruct I as [I1 I2]. split.
    + clear -W. induction (m_stack (a_m s)) as [|f fs IH]; [easy|]. cbn [who] in W. destruct (inside f r) eqn:F; [discriminate|]. intros g [<-|G]; [|now apply IH]. intros H. apply inside_iff in H. congruence.
    + exists done, v1. auto.
Qed.
End Generic.

Lemma by_app t d l1 l2 : by_ t d (l1 ++ l2) = by_ t d l1 ++ by_ t d l2.
Proof. unfold by_. now rewrite filter_app, map_app. Qed.
Lemma acc_by r t d v body v2 : accesses r t d v body v2 -> by_ t d body = map (@ev_act nat) body.
Proof. induction 1; [reflexivity| |]; rewrite by_app, map_app, IHaccesses; unfold by_; simpl; now rewrite !Nat.eqb_refl. Qed.
Lemma acc_by_other r t d t' d' v body v2 : (t, d) <> (t', d') -> accesses r t d v body v2 -> by_ t' d' body = [].
Proof.
  intros N. induction 1; [reflexivity| |]; rewrite by_app, IHaccesses; unfold by_; simpl; destruct (Nat.eqb_spec t t'), (Nat.eqb_spec d d'); simpl; try reflexivity; congruence.
Qed.
Lemma acc_exits r t d v body v2 : accesses r t d v body v2 -> filter (fun e : event nat => match ev_act e with Exit => true | _ => false end) body = [].
Proof. induction 1; [reflexivity| |]; rewrite filter_app, IHaccesses; reflexivity. Qed.
Lemma acc_nil_inv r t d (v v2 : nat) : accesses r t d v [] v2 -> v2 = v.
Proof. remember [] as L. intros H. destruct H as [v|v l v' H|v l v' w H]; [reflexivity|destruct l; discriminate|destruct l; discriminate]. Qed.
Lemma acc_cons r t d v e l v2 : accesses r t d v (e :: l) v2 ->
  (exists w, e = mkEv r t d (Read v) /\ w = v /\ accesses r t d w l v2) \/ (exists w, e = mkEv (V := nat) r t d (Write w) /\ accesses r t d w l v2).
Proof.
  remember (e :: l) as L. intros H. revert e l HeqL. induction H as [v|v l0 v' H IH|v l0 v' w H IH]; intros e l E; [discriminate| |].
  - destruct l0 as [|e0 l0].
    + apply acc_nil_inv in H. subst v'. simpl in E. injection E as <- <-. left. eexists. repeat split. constructor.
    + simpl in E. injection E as <- <-. destruct (IH _ _ eq_refl) as [(w & E & W & X)|(w & E & X)]; [left|right]; exists w; repeat split; auto; now constructor.
  - destruct l0 as [|e0 l0].
    + apply acc_nil_inv in H. subst v'. simpl in E. injection E as <- <-. right. eexists. repeat split. constructor.
    + simpl in E. injection E as <- <-. destruct (IH _ _ eq_refl) as [(w0 & E & W & X)|(w0 & E & X)]; [left|right]; exists w0; repeat split; auto; econstructor; eauto.
Qed.

Lemma serial_incs r v l v2 : serial r v l v2 -> (forall t d, run inc_next Out (by_ t d l) <> None) ->
  v2 = v + List.length (filter (fun e : event nat => match ev_act e with Exit => true | _ => false end) l) /\ (forall t d, run inc_next Out (by_ t d l) = Some Out).
Proof.
  induction 1 as [v|v l v1 t d body v2 Sr IH HA]; intros Hi; [split; [simpl; lia|reflexivity]|].
  assert (P : forall t' d', run inc_next Out (by_ t' d' l) <> None).
  { intros t' d' N. apply (Hi t' d'). rewrite by_app, run_app, N. reflexivity. }
  destruct (IH P) as [E Ho].
  assert (Eb : by_ t d (mkEv r t d Enter :: body ++ [mkEv r t d Exit]) = Enter :: map (@ev_act nat) body ++ [Exit]).
  { change (by_ t d ([mkEv r t d Enter] ++ body ++ [mkEv r t d Exit]) = Enter :: map (@ev_act nat) body ++ [Exit]). rewrite !by_app, (acc_by HA). unfold by_. simpl. now rewrite !Nat.eqb_refl. }
  pose proof (Hi t d) as H. rewrite by_app, run_app, Ho, Eb in H.
  assert (v2 = S v1 /\ run inc_next Out (Enter :: map (@ev_act nat) body ++ [Exit]) = Some Out) as [E2 Er].
  { cbn [run inc_next] in *. destruct body as [|e1 body]; [exfalso; now apply H|]. apply acc_cons in HA as [(w & -> & -> & HA)|(w & -> & HA)]; [|exfalso; now apply H].
    cbn [map List.app run inc_next ev_act] in *. destruct body as [|e2 body]; [exfalso; now apply H|]. apply acc_cons in HA as [(w & -> & -> & HA)|(w & -> & HA)]; [exfalso; now apply H|].
    cbn [map List.app run inc_next ev_act] in *. destruct (Nat.eqb_spec w (S v1)) as [->|]; [|exfalso; now apply H].
    destruct body as [|e3 body]; [apply acc_nil_inv in HA; split; [lia|reflexivity]|]. apply acc_cons in HA as [(w & -> & -> & HA)|(w & -> & HA)]; exfalso; now apply H. }
  split.
  - rewrite filter_app, app_length. cbn [filter ev_act]. rewrite filter_app, (acc_exits HA). simpl. lia.
  - intros t' d'. rewrite by_app, run_app, Ho. destruct (Nat.eq_dec t t') as [<-|N]; [destruct (Nat.eq_dec d d') as [<-|N]|].
    + rewrite Eb. exact Er.
    + change (run inc_next Out (by_ t d' ([mkEv r t d Enter] ++ body ++ [mkEv r t d Exit])) = Some Out). rewrite !by_app, (@acc_by_other r t d t d' v1 body v2) by (auto; congruence). unfold by_. simpl. rewrite (proj2 (Nat.eqb_neq d d') N), andb_false_r. reflexivity.
    + change (run inc_next Out (by_ t' d' ([mkEv r t d Enter] ++ body ++ [mkEv r t d Exit])) = Some Out). rewrite !by_app, (@acc_by_other r t d t' d' v1 body v2) by (auto; congruence). unfold by_. simpl. rewrite (proj2 (Nat.eqb_neq t t') N). reflexivity.
Qed.

Lemma gen_no_lost (B : backend) (A : lapp) m0 x0 (val : nat -> nat) junk r s : (forall s, mreach A m0 x0 s -> excl_on A r s) ->
  reach (@astep B A nat) (a_init B m0 x0 val junk) s -> increments r (a_log s) -> (forall f, In f (m_stack (a_m s)) -> ~ holds f r) -> a_mem s r = val r + completed r (a_log s).
Proof.
  intros Hex R Hi Hn. destruct (@gen_serial B A nat m0 x0 val junk r Hex s R) as [(t & f & below & above & E & Hf & _)|[_ (done & v1 & S & I1 & I2)]].
  - exfalso. apply (Hn f); [rewrite E; apply in_elt|exact Hf].
  - unfold completed. rewrite I2, I1. apply (serial_incs S). intros t d. rewrite <- I1. apply Hi.
Qed.

(** The statement, for one resource of one application on one backend: in every reachable state (any interleaving of
    interrupts, tasks, locks and accesses) the history of [r] is serial; the value a holder works on, or else the value
    in memory, is the one that the history leaves. *)
Definition serialised (B : backend) (A : lapp) (m0 : bm B) (x0 : bs B) (r : nat) : Prop :=
  forall V (val : nat -> V) junk s, reach (@astep B A V) (a_init B m0 x0 val junk) s ->
    (exists t f below above, m_stack (a_m s) = above ++ f :: below /\ holds f r /\ f_task f = Some t /\
       serial_history r (val r) (on r (a_log s)) (Some (t, List.length below)) (a_copy s (List.length below) r)) \/
    ((forall f, In f (m_stack (a_m s)) -> ~ holds f r) /\ serial_history r (val r) (on r (a_log s)) None (a_mem s r)).
(** ... in particular no update is lost: when tasks only add one to [r] and nobody is inside a closure, the value is the
    initial one plus the number of completed closures. *)
Definition no_lost_update (B : backend) (A : lapp) (m0 : bm B) (x0 : bs B) (r : nat) : Prop :=
  forall (val : nat -> nat) junk s, reach (@astep B A nat) (a_init B m0 x0 val junk) s -> increments r (a_log s) ->
    (forall f, In f (m_stack (a_m s)) -> ~ holds f r) -> a_mem s r = val r + completed r (a_log s).

(** Any well-formed application, per backend. *)
Theorem C77_basepri_serialised bits A r : 1 <= bits <= 7 -> app_ok A (2 ^ bits) -> serialised (bp bits A) A breg0 breg0 r /\ no_lost_update (bp bits A) A breg0 breg0 r.
Proof.
  intros Hb Hok. assert (X : forall s : mach (bp bits A), bp_reach s -> excl_on A r s) by (intros s R; pose proof (C01_basepri_mutual_exclusion Hb Hok R) as M; exact (M r)).
  split; [intros V val junk s; apply gen_serial; exact X|intros val junk s; now apply gen_no_lost].
Qed.
Theorem C77_threshold_serialised_partial A r : app_ok A 15 -> (forall c c', l_nest A c c' = true -> c <= c') -> serialised (th A) A treg0 treg0 r /\ no_lost_update (th A) A treg0 treg0 r.
Proof.
  intros Hok Hn. assert (X : forall s : mach (th A), th_reach s -> excl_on A r s) by (intros s R; pose proof (C06_threshold_mutual_exclusion_partial Hok Hn R) as M; exact (M r)).
  split; [intros V val junk s; apply gen_serial; exact X|intros val junk s; now apply gen_no_lost].
Qed.
Theorem C77_source_serialised_partial A irqn exc m0 r : app_ok A 4 ->
  (forall i j, In i (l_lines A) -> In j (l_lines A) -> exc i = false -> exc j = false -> irqn i = irqn j -> i = j) -> chunks (l_lines A) irqn exc <= List.length (iser m0) ->
  (forall t i, l_uses A t r = true -> l_line A t = Some i -> exc i = false) \/ 4 <= l_ceil A r ->
  serialised (nv A irqn exc) A m0 m0 r /\ no_lost_update (nv A irqn exc) A m0 m0 r.
Proof.
  intros Hok Hinj Hlen Hc. assert (X : forall s : mach (nv A irqn exc), nv_reach m0 s -> excl_on A r s).
  { intros s R. destruct Hc as [Hc|Hc]; [exact (C04_source_mutual_exclusion Hok Hinj Hlen R Hc)|exact (C05_exceptions_excluded_partial Hok Hinj Hlen R Hc)]. }
  split; [intros V val junk s; apply gen_serial; exact X|intros val junk s; now apply gen_no_lost].
Qed.

(** Accepted applications, by name of the resource. *)
Theorem C77_accepted_basepri_partial bits disp items x k r : expand (Cortex bits) disp items = Some x -> 1 <= bits <= 7 ->
  (forall r s, shared_field items r s -> sr_lock_free s = false -> no_clash items r) -> is_resource x k r ->
  serialised (bp bits (lapp_of x)) (lapp_of x) breg0 breg0 k /\ no_lost_update (bp bits (lapp_of x)) (lapp_of x) breg0 breg0 k.
Proof. intros Hx Hb Hc _. exact (C77_basepri_serialised k Hb (@end_ok bits disp items x Hx Hc)). Qed.
Theorem C77_accepted_source_partial disp items x (num : ident -> nat) m0 k r : expand (Cortex 2) disp items = Some x ->
  (forall r s, shared_field items r s -> sr_lock_free s = false -> no_clash items r) ->
  (forall v w, In v (vectors x) -> In w (vectors x) -> is_exception (fst (fst v)) = false -> is_exception (fst (fst w)) = false -> num (fst (fst v)) = num (fst (fst w)) -> fst (fst v) = fst (fst w)) ->
  chunks (l_lines (lapp_of x)) (irqn x num) (exc x) <= List.length (iser m0) -> is_resource x k r ->
  (forall n i p sh lo ac, src_task items n (KHard i) p sh lo -> In (r, ac) sh -> is_exception i = false) \/ (exists n ac, uses_shared items n 4 r ac) ->
  serialised (nv (lapp_of x) (irqn x num) (exc x)) (lapp_of x) m0 m0 k /\ no_lost_update (nv (lapp_of x) (irqn x num) (exc x)) (lapp_of x) m0 m0 k.
Proof.
  intros Hx Hc Hn Hl Hr He. assert (X : forall s : mach (nv (lapp_of x) (irqn x num) (exc x)), nv_reach m0 s -> excl_on (lapp_of x) k s) by (intros s R; exact (@C62_source_mutual_exclusion_partial disp items x Hx Hc num Hn m0 Hl s k r R Hr He)).
  split; [intros V val junk s; apply gen_serial; exact X|intros val junk s; now apply gen_no_lost].
Qed.
Theorem C77_accepted_esp_partial b disp items x k r : expand b disp items = Some x -> b = Esp32c3 \/ b = Esp32c6 ->
  (forall r s, shared_field items r s -> sr_lock_free s = false -> no_clash items r) -> (b = Esp32c6 -> List.length (vectors x) <= 12) -> is_resource x k r ->
  serialised (th (rising x)) (rising x) treg0 treg0 k /\ no_lost_update (th (rising x)) (rising x) treg0 treg0 k.
Proof. intros Hx Hb Hc Hm _. exact (C77_threshold_serialised_partial k (@esp_ok b disp items x Hx Hb Hc Hm) (@esp_nest x)). Qed.
Print Assumptions C77_basepri_serialised.
Print Assumptions C77_threshold_serialised_partial.
Print Assumptions C77_source_serialised_partial.
Print Assumptions C77_accepted_basepri_partial.
Print Assumptions C77_accepted_source_partial.
Print Assumptions C77_accepted_esp_partial.

(** Boolean check, for the cases. *)
Definition incb (r : nat) (l : list (event nat)) : bool :=
  forallb (fun e => match run inc_next Out (by_ (ev_task e) (ev_depth e) (on r l)) with Some _ => true | None => false end) (on r l).
Lemma incb_spec r l : incb r l = true -> increments r l.
Proof.
  intros H t d N. unfold incb in H. rewrite forallb_forall in H.
  destruct (filter (fun e => (ev_task e =? t) && (ev_depth e =? d)) (on r l)) as [|e l'] eqn:F.
  - unfold by_ in N. rewrite F in N. discriminate.
  - assert (He : In e (filter (fun e => (ev_task e =? t) && (ev_depth e =? d)) (on r l))) by (rewrite F; now left). apply filter_In in He as [He C]. apply andb_prop in C as [C1 C2]. apply Nat.eqb_eq in C1, C2.
    specialize (H e He). rewrite C1, C2, N in H. discriminate.
Qed.
Definition free_of (B : backend) (s : mach B) (r : nat) : bool := forallb (fun f => negb (inside f r)) (m_stack s).
Lemma free_of_spec (B : backend) (s : mach B) r : free_of s r = true -> forall f, In f (m_stack s) -> ~ holds f r.
Proof. intros H f F N. unfold free_of in H. rewrite forallb_forall in H. specialize (H f F). apply inside_iff in N. rewrite N in H. discriminate. Qed.
Lemma arun_check (B : backend) (o : option (amach B nat)) (P : amach B nat -> bool) : match o with Some s => P s | None => false end = true -> exists s, o = Some s /\ P s = true.
Proof. destruct o; [eauto|discriminate]. Qed.

(** The example application: [idle] adds one to [cnt], interrupted inside the closure by the dispatcher of priority 3;
    then the dispatcher of priority 1 starts to lock [cnt] for [work], [uart] preempts it and adds one, and [work] adds
    one: all three increments count. *)
Notation st l := (AStep nat l).
Definition lk (r : nat) : list (alabel nat) := [st (LLock r); st LMicro; st LMicro].
Definition ul : list (alabel nat) := [st LUnlock; st LMicro; st LMicro].
Definition ex_sched : list (alabel nat) :=
  [st (LStart 0)] ++ lk 0 ++ [ARead nat 0; AWrite 0 11; st (LTake 3); st (LStart 4); st LStop; st LRet] ++ ul ++
  [st (LTake 2); st (LStart 3); st (LLock 0); st (LTake 0); st (LStart 1)] ++ lk 0 ++ [ARead nat 0; AWrite 0 12] ++ ul ++ [st LStop; st LRet] ++
  [st LMicro; st LMicro; ARead nat 0; AWrite 0 13] ++ ul.
Example C77_case : exists s : amach (bp 3 (lapp_of ex_x)) nat, reach (@astep (bp 3 (lapp_of ex_x)) (lapp_of ex_x) nat) (a_init (bp 3 (lapp_of ex_x)) breg0 breg0 (fun _ => 10) (fun _ _ => 0)) s /\
  is_resource ex_x 0 "cnt" /\ increments 0 (a_log s) /\ (forall f, In f (m_stack (a_m s)) -> ~ holds f 0) /\ completed 0 (a_log s) = 3 /\ a_mem s 0 = 13 /\
  map (@ev_task nat) (a_log s) = [0; 0; 0; 0; 1; 1; 1; 1; 3; 3; 3; 3].
Proof.
  destruct (@arun_check (bp 3 (lapp_of ex_x)) (run (@astep (bp 3 (lapp_of ex_x)) (lapp_of ex_x) nat) (a_init (bp 3 (lapp_of ex_x)) breg0 breg0 (fun _ => 10) (fun _ _ => 0)) ex_sched)
    (fun s => incb 0 (a_log s) && free_of (a_m s) 0 && (completed 0 (a_log s) =? 3) && (a_mem s 0 =? 13) && if list_eq_dec Nat.eq_dec (map (@ev_task nat) (a_log s)) [0; 0; 0; 0; 1; 1; 1; 1; 3; 3; 3; 3] then true else false)) as (s & E & C); [vm_compute; reflexivity|].
  exists s. split; [eexists; exact E|]. clear E. apply andb_prop in C as [C C5]. apply andb_prop in C as [C C4]. apply andb_prop in C as [C C3]. apply andb_prop in C as [C1 C2]. apply Nat.eqb_eq in C3, C4.
  split; [eexists; vm_compute; reflexivity|]. split; [now apply incb_spec|]. split; [now apply free_of_spec|]. split; [exact C3|]. split; [exact C4|].
  destruct (list_eq_dec Nat.eq_dec _ _) as [E|]; [exact E|discriminate].
Qed.
(** The same hypotheses on the other backends: C62_source_case, C06_case. *)

(** A core exception on source masking: accepted, and an increment is lost. *)
Theorem C77_exception_lost_update_refuted : exists items x (num : ident -> nat) m0, expand (Cortex 2) [] items = Some x /\
  chunks (l_lines (lapp_of x)) (irqn x num) (exc x) <= List.length (iser m0) /\ ~ no_lost_update (nv (lapp_of x) (irqn x num) (exc x)) (lapp_of x) m0 m0 0 /\
  ~ serialised (nv (lapp_of x) (irqn x num) (exc x)) (lapp_of x) m0 m0 0.
Proof.
  exists (m0_items "SysTick"), (m0_x "SysTick"), m0_num, m0_reg. split; [vm_compute; reflexivity|]. split; [vm_compute; lia|].
  destruct (@arun_check (m0_back "SysTick") (run (@astep (m0_back "SysTick") (lapp_of (m0_x "SysTick")) nat) (a_init (m0_back "SysTick") m0_reg m0_reg (fun _ => 0) (fun _ _ => 0))
      ([st (LTake 0); st (LStart 0)] ++ lk 0 ++ [ARead nat 0; AWrite 0 1; st (LTake 1); st (LStart 1)] ++ lk 0 ++ [ARead nat 0; AWrite 0 1] ++ ul ++ [st LStop; st LRet; st LUnlock]))
    (fun s => incb 0 (a_log s) && free_of (a_m s) 0 && (completed 0 (a_log s) =? 2) && (a_mem s 0 =? 1))) as (s & E & C); [vm_compute; reflexivity|].
  apply andb_prop in C as [C C4]. apply andb_prop in C as [C C3]. apply andb_prop in C as [C1 C2]. apply Nat.eqb_eq in C3, C4. apply incb_spec in C1. assert (F := @free_of_spec _ _ _ C2). clear C2.
  split.
  - intros N. assert (X := N (fun _ => 0) (fun _ _ => 0) s (ex_intro _ _ E) C1 F). rewrite C3, C4 in X. discriminate.
  - intros N. destruct (N nat (fun _ => 0) (fun _ _ => 0) s (ex_intro _ _ E)) as [(t & f & below & above & Es & Hf & _)|[_ (done & v1 & S & I1 & I2)]].
    + apply (F f); [rewrite Es; apply in_elt|exact Hf].
    + assert (X : v1 = 0 + completed 0 (a_log s)) by (unfold completed; rewrite I1; apply (serial_incs S); intros t d; rewrite <- I1; apply C1). rewrite C3, <- I2, C4 in X. discriminate.
Qed.
Print Assumptions C77_exception_lost_update_refuted.

(** ESP32, a lock nested inside one of higher ceiling: accepted, and an increment is lost. *)
Theorem C77_esp_lost_update_refuted : exists items x r, expand Esp32c3 [] items = Some x /\ ~ no_lost_update (th (lapp_of x)) (lapp_of x) treg0 treg0 r.
Proof.
  exists esp_items, esp_x, 1. split; [exact esp_accepted|].
  destruct (@arun_check (th (lapp_of esp_x)) (run (@astep (th (lapp_of esp_x)) (lapp_of esp_x) nat) (a_init (th (lapp_of esp_x)) treg0 treg0 (fun _ => 0) (fun _ _ => 0))
      ([st (LTake 0); st (LStart 0)] ++ lk 1 ++ [ARead nat 1; AWrite 1 1] ++ lk 0 ++ [st (LTake 2); st (LStart 2)] ++ lk 1 ++ [ARead nat 1; AWrite 1 1] ++ ul ++ [st LStop; st LRet] ++ ul ++ [st LUnlock]))
    (fun s => incb 1 (a_log s) && free_of (a_m s) 1 && (completed 1 (a_log s) =? 2) && (a_mem s 1 =? 1))) as (s & E & C); [vm_compute; reflexivity|].
  apply andb_prop in C as [C C4]. apply andb_prop in C as [C C3]. apply andb_prop in C as [C1 C2]. apply Nat.eqb_eq in C3, C4. apply incb_spec in C1. assert (F := @free_of_spec _ _ _ C2).
  intros N. assert (X := N (fun _ => 0) (fun _ _ => 0) s (ex_intro _ _ E) C1 F). rewrite C3, C4 in X. discriminate.
Qed.
Print Assumptions C77_esp_lost_update_refuted.
