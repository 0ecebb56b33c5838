(** C75: the whole application.  If user code returns, everything comes to rest, and then everything spawned, woken and
    raised has run; C17 in the whole application. *)
From Verif Require Import Base LTS AppModel AppSpec AppProofs AppAnalysis AppChecks AppFinal AppRun LockModel LockSpec LockProofs LockBackends LockBackendProofs LockSourceProofs LockFinal PropertiesLock PropertiesApp PropertiesEnd ExecModel ExecSpec SystemModel SystemSpec SystemProofs SystemProgress SystemFinal SystemApp.
From Coq Require Import String.
Open Scope list_scope.
From Verif Require PropertiesBlocking.
Set Implicit Arguments.

(** * Any target, any lock machine *)
Section Gen.
Context {V : Type} (B : backend) (P : sapp) (Hok : sapp_ok P) (m0 : bm B) (x0 : bs B).
Notation A := (sa_lock P).
Context (top : nat) (Good : bm B -> Prop) (okc : bm B -> nat -> Prop) (free : nat -> nat -> bool) (K : backend_base B A top m0 Good okc free) (Happ : app_ok A top).
Context (K0 : forall i, In i (l_lines A) -> admits B m0 i = true).
Lemma gen_kw (s : sys V B) f : yreach P m0 x0 s -> m_stack (y_m s) = [f] -> f_ents f = [] -> m_mask (y_m s) = m0.
Proof. intros R E En. pose proof (wf_reach K Happ (yreach_m R)) as W. rewrite E in W. eapply wf_idle; eauto. Qed.
Lemma gen_rest (s : sys V B) : yreach P m0 x0 s ->
  (exists n, forall ls s', run (cstep P) s ls = Some s' -> List.length ls <= n) /\
  ((exists l s', cstep P s l = Some s') \/ bad_poll s \/ at_rest s).
Proof.
  intros R. split; [|exact (progress Hok K0 gen_kw R)]. exists (mu P s). intros ls s' E. pose proof (close_bound Hok ls R E). lia.
Qed.
Lemma gen_reaches (s : sys V B) : yreach P m0 x0 s -> exists ls s', run (cstep P) s ls = Some s' /\ (bad_poll s' \/ at_rest s').
Proof.
  remember (mu P s) as n eqn:E. assert (L : mu P s <= n) by lia. clear E. revert s L. induction n as [|n IH]; intros s L R; (destruct (progress Hok K0 gen_kw R) as [(l & s1 & X)|X]; [|exists [], s; auto]).
  - pose proof (mu_dec Hok _ R X). lia.
  - pose proof (mu_dec Hok _ R X). destruct (IH s1) as (ls & s' & Hr & Y); [lia|unfold cstep in X; destruct (closing s l); [eapply reach_step; eauto|discriminate]|]. exists (l :: ls), s'. simpl. rewrite X. auto.
Qed.
End Gen.

(** * What running means in terms of the source *)
Section Source.
Context {V : Type} (b : bkind) (disp : list ident) (items : list item) (x : expansion) (Hx : expand b disp items = Some x).
(** Only the SLIC back end lets a hardware task be bound to a dispatcher's interrupt (finding, C11). *)
Context (Hbinds : b = Slic -> forall n i p sh lo, src_task items n (KHard i) p sh lo -> ~ In i (ap_disp (x_app x))).
Context (A : lapp) (u : bool) (env : list nat) (B : backend) (m0 : bm B) (x0 : bs B).
Notation P := (sys_of x A u env).
Notation Y := (sys V B).
Implicit Types s : Y.

(** Each software task is polled by one dispatcher, the one of its priority. *)
Theorem C75_who_polls n p sh lo : src_task items n KSoft p sh lo ->
  exists t k, number x n = Some t /\ In t (sa_polls P k) /\ lprio (lapp_of x) k = p /\ l_line (lapp_of x) t = k.
Proof. destruct (@expand_accepted _ _ _ _ Hx) as [a H]. exact (@polled _ _ _ _ _ H Hbinds n p sh lo A u env). Qed.

(** At rest, every accepted spawn of an interrupt-driven task has been polled. *)
Theorem C75_spawned_polled n p sh lo : src_task items n KSoft p sh lo -> 1 <= p ->
  exists t i, number x n = Some t /\ In t (sa_polls P (Some i)) /\ l_prio (lapp_of x) i = p /\
  forall s id v, yreach P m0 x0 s -> at_rest s -> In (XAlloc t id v) (elog (y_x s (Some i))) -> In (XPoll t id v) (elog (y_x s (Some i))).
Proof.
  intros T L. destruct (C75_who_polls T) as (t & [i|] & E1 & E2 & E3 & _); [|simpl in E3; lia]. exists t, i. repeat split; auto. intros s id v R H I. eapply rest_polled; eauto.
Qed.
(** At rest, every such task whose waker was called has been polled since, unless its instance has ended. *)
Theorem C75_woken_polled n p sh lo : src_task items n KSoft p sh lo -> 1 <= p ->
  exists t i, number x n = Some t /\ In t (sa_polls P (Some i)) /\ l_prio (lapp_of x) i = p /\
  forall s l s1 ls s2, yreach P m0 x0 s -> ystep P s l = Some s1 -> (l = YUser (Some i) t None \/ exists e, l = YEnv e (Some i) t None) ->
  run (@ystep V B P) s1 ls = Some s2 -> at_rest s2 ->
  (exists id v, xemits (y_x s1 (Some i)) (y_x s2 (Some i)) (XPoll t id v)) \/ forall id v, ~ lives t (elog (y_x s2 (Some i))) (Some (id, v)).
Proof.
  intros T L. destruct (C75_who_polls T) as (t & [i|] & E1 & E2 & E3 & _); [|simpl in E3; lia]. exists t, i. repeat split; auto. intros s l s1 ls s2 R Hs Hl Hr H. eapply rest_woken; eauto.
Qed.
(** A hardware task whose interrupt is raised has run before the application is at rest. *)
Theorem C75_raised_ran n i p sh lo : src_task items n (KHard i) p sh lo ->
  exists t j, number x n = Some t /\ fst (fst (nth j (vectors x) no_vec)) = i /\ l_prio (lapp_of x) j = p /\
  forall s s1 ls s2, yreach P m0 x0 s -> ystep P s (YRaise j) = Some s1 -> run (@ystep V B P) s1 ls = Some s2 -> at_rest s2 ->
  exists l1 l2 s3 f, ls = l1 ++ l2 /\ run (@ystep V B P) s1 l1 = Some s3 /\ In f (m_stack (y_m s3)) /\ f_line f = Some j /\ f_task f = Some t.
Proof.
  destruct (@expand_accepted _ _ _ _ Hx) as [a H]. intros T. destruct (@called _ _ _ _ _ H n i p sh lo A u env T) as (t & j & E1 & E2 & E3 & E4 & E5). exists t, j. repeat split; auto.
  intros s s1 ls s2 R Hs Hr HR. assert (D : hw_due s1 j).
  { left. unfold ystep in Hs. destruct (m_stack (y_m s)); [discriminate|]. rewrite E2 in Hs. destruct (existsb _ _); [|discriminate]. injection Hs as <-. cbn [y_pend]. apply upd_same. }
  destruct (@rest_ran V B P m0 x0 ls s1 s2 j t (reach_step _ R Hs) E2 D Hr HR) as (l1 & l2 & s3 & -> & X & I). unfold vw, view_of in I. apply in_map_iff in I as (f & E & I). injection E as Ea Eb. exists l1, l2, s3, f. auto 6.
Qed.

(** * C17 *)
(** A bad poll happens only if the dispatcher preempted a lower-priority task in the middle of its spawn, or an
    interrupt handler that is no task was in the middle of one. *)
Theorem C17_bad_poll_preempts_spawner_partial s l s' k : yreach P m0 x0 s -> ystep P s l = Some s' -> ebug (y_x s k) = false -> ebug (y_x s' k) = true ->
  exists c t, in_window (y_x s k) c t /\
    ((exists e, c = ectx e /\ In e env) \/
     exists f above g below, m_stack (y_m s) = f :: above ++ g :: below /\ f_line f = k /\ c = hctx (f_line g) /\ f_task g <> None /\ lprio A (f_line g) < lprio A k).
Proof. exact (@bug_low V B P m0 x0 s l s' k). Qed.
(** If tasks spawn only tasks of at most their own priority, and other interrupt handlers do not spawn, there is none. *)
Theorem C17_no_bad_poll_downward_partial s :
  greach (@ystep V B P) (fun s l => match l with
                            | YUser k _ (Some _) => match m_stack (y_m s) with f :: _ => lprio A k <= lprio A (f_line f) | [] => True end
                            | YEnv _ _ _ (Some _) => False
                            | _ => True
                            end) (@y_init V B m0 x0) s -> ~ bad_poll s.
Proof. intros G [k E]. rewrite (@downward_ok V B P m0 x0 s G k) in E. discriminate. Qed.
End Source.

(** * Cortex-M with BASEPRI *)
Section Basepri.
Context {V : Type} (bits : nat) (disp : list ident) (items : list item) (x : expansion) (Hx : expand (Cortex bits) disp items = Some x) (Hbits : 1 <= bits <= 7).
Context (Hclash : forall r s, shared_field items r s -> sr_lock_free s = false -> no_clash items r) (env : list nat).
Notation B := (bp bits (lapp_of x)).
Notation P := (sys_of x (lapp_of x) false env).
Lemma bp_sys : sapp_ok P.
Proof. destruct (@expand_accepted _ _ _ _ Hx) as [a H]. apply (sys_ok H). intros E. discriminate E. Qed.
Let Hend : app_ok (lapp_of x) (2 ^ bits) := @end_ok bits disp items x Hx Hclash.
Theorem C75_basepri_comes_to_rest (s : sys V B) : @yreach V B P breg0 breg0 s ->
  (exists n, forall ls s', run (cstep P) s ls = Some s' -> List.length ls <= n) /\ ((exists l s', cstep P s l = Some s') \/ bad_poll s \/ at_rest s).
Proof. apply (gen_rest bp_sys (@basepri_ok bits (lapp_of x) Hbits (proj1 Hend)) Hend). reflexivity. Qed.
Theorem C75_basepri_reaches_rest (s : sys V B) : @yreach V B P breg0 breg0 s -> exists ls s', run (cstep P) s ls = Some s' /\ (bad_poll s' \/ at_rest s').
Proof. apply (gen_reaches bp_sys (@basepri_ok bits (lapp_of x) Hbits (proj1 Hend)) Hend). reflexivity. Qed.
Theorem C75_basepri_mutual_exclusion (s : sys V B) : @yreach V B P breg0 breg0 s -> mutual_exclusion (lapp_of x) (y_m s).
Proof. intros R. apply (@C54_accepted_mutual_exclusion_partial bits disp items x Hx Hbits Hclash). exact (yreach_m R). Qed.
(** C72 for accepted applications: an interrupt is delayed by lower-priority code only inside one lock of a resource of the application, open already. *)
Theorem C72_accepted_one_section : @PropertiesBlocking.delayed_once (bp bits (lapp_of x)) (lapp_of x) breg0 breg0.
Proof. exact (PropertiesBlocking.C72_basepri_one_section Hbits Hend). Qed.
End Basepri.

(** * Cortex-M0/M23 with interrupt source masking *)
Section SourceMask.
Context {V : Type} (disp : list ident) (items : list item) (x : expansion) (Hx : expand (Cortex 2) disp items = Some x).
Context (Hclash : forall r s, shared_field items r s -> sr_lock_free s = false -> no_clash items r) (env : list nat).
Context (num : ident -> nat) (Hnum : forall v w, In v (vectors x) -> In w (vectors x) -> is_exception (fst (fst v)) = false -> is_exception (fst (fst w)) = false -> num (fst (fst v)) = num (fst (fst w)) -> fst (fst v) = fst (fst w)).
Context (m0 : nreg) (Hlen : chunks (l_lines (lapp_of x)) (irqn x num) (exc x) <= List.length (iser m0)).
Notation B := (nv (lapp_of x) (irqn x num) (exc x)).
Notation P := (sys_of x (lapp_of x) false env).
(** the start-up code has enabled every interrupt *)
Context (Hall : forall i, In i (l_lines (lapp_of x)) -> admits B m0 i = true).
Lemma src_sys : sapp_ok P.
Proof. destruct (@expand_accepted _ _ _ _ Hx) as [a H]. apply (sys_ok H). intros E. discriminate E. Qed.
Let Happ : app_ok (lapp_of x) 4 := @src_ok disp items x Hx Hclash.
Let K := @source_ok (lapp_of x) (irqn x num) (exc x) m0 (proj1 Happ) (@src_inj disp items x Hx num Hnum m0 Hlen) Hlen.
Theorem C75_source_comes_to_rest (s : sys V B) : @yreach V B P m0 m0 s ->
  (exists n, forall ls s', run (cstep P) s ls = Some s' -> List.length ls <= n) /\ ((exists l s', cstep P s l = Some s') \/ bad_poll s \/ at_rest s).
Proof. exact (gen_rest src_sys K Happ Hall (s := s)). Qed.
Theorem C75_source_reaches_rest (s : sys V B) : @yreach V B P m0 m0 s -> exists ls s', run (cstep P) s ls = Some s' /\ (bad_poll s' \/ at_rest s').
Proof. exact (gen_reaches src_sys K Happ Hall (s := s)). Qed.
End SourceMask.

(** * ESP32 *)
Section Esp.
Context {V : Type} (b : bkind) (disp : list ident) (items : list item) (x : expansion) (Hx : expand b disp items = Some x) (Hb : b = Esp32c3 \/ b = Esp32c6).
Context (Hclash : forall r s, shared_field items r s -> sr_lock_free s = false -> no_clash items r) (Hmany : b = Esp32c6 -> List.length (vectors x) <= 12) (env : list nat).
Notation B := (th (lapp_of x)).
Notation P := (sys_of x (lapp_of x) true env).
Lemma esp_sys : sapp_ok P.
Proof. destruct (@expand_accepted _ _ _ _ Hx) as [a H]. apply (sys_ok H). intros ->; destruct Hb; discriminate. Qed.
Let Happ : app_ok (lapp_of x) 15 := @esp_ok b disp items x Hx Hb Hclash Hmany.
Lemma esp_all i : In i (l_lines (lapp_of x)) -> admits B treg0 i = true.
Proof. intros I. cbv [admits th thresh_backend treg0 mie_off thresh negb andb]. apply Nat.leb_le. exact (proj1 (proj1 Happ i I)). Qed.
Theorem C75_esp_comes_to_rest (s : sys V B) : @yreach V B P treg0 treg0 s ->
  (exists n, forall ls s', run (cstep P) s ls = Some s' -> List.length ls <= n) /\ ((exists l s', cstep P s l = Some s') \/ bad_poll s \/ at_rest s).
Proof. exact (gen_rest esp_sys (@thresh_base (lapp_of x) (proj1 Happ)) Happ esp_all (s := s)). Qed.
Theorem C75_esp_reaches_rest (s : sys V B) : @yreach V B P treg0 treg0 s -> exists ls s', run (cstep P) s ls = Some s' /\ (bad_poll s' \/ at_rest s').
Proof. exact (gen_reaches esp_sys (@thresh_base (lapp_of x) (proj1 Happ)) Happ esp_all (s := s)). Qed.
End Esp.

(** * Cases *)
(** The application of PropertiesApp on Cortex-M with 3 priority bits: idle; [uart], [spi] (hardware, priority 2, handlers 0 and
    1); [work] (task 3, priority 1, dispatcher 2), [log] (task 4, priority 3, dispatcher 3).  UART0 preempts idle; [uart] locks [cnt],
    spawns [work] inside the lock and returns; [work] spawns [log], whose dispatcher preempts it; both return. *)
Notation ex_p := (sys_of ex_x (lapp_of ex_x) false []).
Notation ex_b := (bp 3 (lapp_of ex_x)).
Definition ex_run : list (ylabel nat) :=
  [YHandler; YRaise 0; YTake 0; YHandler; YLock 0; YMicro; YMicro; YUser (Some 2) 3 (Some 7); YCall; YCall; YCall; YUnlock; YMicro; YMicro; YDone true; YHandler;
   YTake 2; YHandler; YHandler; YUser (Some 3) 4 (Some 9); YCall; YCall; YCall; YTake 3; YHandler; YHandler; YDone true; YHandler; YHandler; YHandler; YDone true; YHandler; YHandler; YHandler].
Definition ex_end : sys nat ex_b := match run (@ystep nat ex_b ex_p) (@y_init nat ex_b breg0 breg0) ex_run with Some s => s | None => @y_init nat ex_b breg0 breg0 end.
Lemma ex_run_ok (ls : list (ylabel nat)) : (match run (@ystep nat ex_b ex_p) (@y_init nat ex_b breg0 breg0) ls with Some _ => true | None => false end) = true ->
  run (@ystep nat ex_b ex_p) (@y_init nat ex_b breg0 breg0) ls = Some (match run (@ystep nat ex_b ex_p) (@y_init nat ex_b breg0 breg0) ls with Some s => s | None => @y_init nat ex_b breg0 breg0 end).
Proof. destruct (run _ _ ls); [reflexivity|discriminate]. Qed.
Definition lone {B} (m : mach B) : bool := match m_stack m with [f] => match f_line f, f_ents f with None, [] => true | _, _ => false end | _ => false end.
Lemma lone_spec {B} (m : mach B) : lone m = true -> exists f, m_stack m = [f] /\ f_line f = None /\ f_ents f = [].
Proof. unfold lone. destruct (m_stack m) as [|f [|]]; try discriminate. intros E. exists f. destruct (f_line f), (f_ents f); try discriminate. auto. Qed.
Example C75_case : expand (Cortex 3) ex_disp ex_items = Some ex_x /\ (forall r s, shared_field ex_items r s -> sr_lock_free s = false -> no_clash ex_items r) /\
  @yreach nat ex_b ex_p breg0 breg0 ex_end /\ at_rest ex_end /\ ~ bad_poll ex_end /\
  elog (y_x ex_end (Some 2)) = [XAlloc 3 0 7; XOk 2 3 0 7; XPoll 3 0 7; XEnd 3 0] /\ elog (y_x ex_end (Some 3)) = [XAlloc 4 0 9; XOk 6 4 0 9; XPoll 4 0 9; XEnd 4 0].
Proof.
  split; [exact ex_accepted|]. split.
  { intros r s (sn & fs & I & J) F. assert (r = "cnt" \/ r = "raw" \/ r = "cfg")%string as D. { simpl in I. repeat (destruct I as [I|I]; [try discriminate; injection I as <- <-; simpl in J; destruct J as [J|[J|[J|[]]]]; injection J as <- _; auto|]). destruct I. }
    clear I J. destruct D as [-> |[-> | ->]]; no_clash_tac. }
  split; [exists ex_run; apply ex_run_ok; vm_compute; reflexivity|]. split.
  { constructor.
    - apply lone_spec. vm_compute. reflexivity.
    - intros [|[|[|[|i]]]]; vm_compute; reflexivity.
    - intros [|[|[|[|i]]]]; vm_compute; auto.
    - intros [|[|[|[|[|[|[|[|[|[|c]]]]]]]]]]; vm_compute; reflexivity. }
  split; [|split; vm_compute; reflexivity]. intros [[[|[|[|[|i]]]]|] E]; vm_compute in E; discriminate.
Qed.
(** The same until [work] has begun, as a run in which tasks spawn only downward. *)
Fixpoint downb (s : sys nat ex_b) (ls : list (ylabel nat)) : bool :=
  match ls with
  | [] => true
  | l :: r => match l with
              | YUser k _ (Some _) => match m_stack (y_m s) with f :: _ => lprio (lapp_of ex_x) k <=? lprio (lapp_of ex_x) (f_line f) | [] => true end
              | YEnv _ _ _ (Some _) => false
              | _ => true
              end && match ystep ex_p s l with Some s' => downb s' r | None => false end
  end.
Lemma downb_ok ls : forall s, downb s ls = true -> exists s', run (@ystep nat ex_b ex_p) s ls = Some s' /\
  guarded (@ystep nat ex_b ex_p) (fun s l => match l with
                            | YUser k _ (Some _) => match m_stack (y_m s) with f :: _ => lprio (lapp_of ex_x) k <= lprio (lapp_of ex_x) (f_line f) | [] => True end
                            | YEnv _ _ _ (Some _) => False
                            | _ => True
                            end) s ls.
Proof.
  induction ls as [|l ls IH]; intros s E; [exists s; simpl; auto|]. cbn [downb] in E. apply andb_prop in E as [E1 E2]. destruct (ystep ex_p s l) as [s1|] eqn:Es; [|discriminate].
  destruct (IH s1 E2) as (s' & R & G). exists s'. cbn [run guarded]. rewrite Es. split; [exact R|]. split; [|exact G].
  destruct l as [| | | | | | |k t [v|]| |c k t [v|]|]; auto; [|discriminate]. destruct (m_stack (y_m s)); [exact I|]. now apply Nat.leb_le.
Qed.
Example C17_downward_case : exists s' : sys nat ex_b, run (@ystep nat ex_b ex_p) (@y_init nat ex_b breg0 breg0) (firstn 19 ex_run) = Some s' /\
  greach (@ystep nat ex_b ex_p) (fun s l => match l with
                            | YUser k _ (Some _) => match m_stack (y_m s) with f :: _ => lprio (lapp_of ex_x) k <= lprio (lapp_of ex_x) (f_line f) | [] => True end
                            | YEnv _ _ _ (Some _) => False
                            | _ => True
                            end) (@y_init nat ex_b breg0 breg0) s'.
Proof. destruct (@downb_ok (firstn 19 ex_run) (@y_init nat ex_b breg0 breg0)) as (s' & R & G); [vm_compute; reflexivity|]. exists s'. split; [exact R|]. exists (firstn 19 ex_run). auto. Qed.
(** The hypotheses of the other targets: the Cortex-M0 application of C62, whose start-up code enables both interrupts, and the
    ESP32-C3 one, in which a task takes a lock inside one of higher ceiling. *)
Example C75_source_case i : In i (l_lines (lapp_of (m0_x "UART1"))) -> admits (nv (lapp_of (m0_x "UART1")) (irqn (m0_x "UART1") m0_num) (exc (m0_x "UART1"))) m0_reg i = true.
Proof. intros I. vm_compute in I. destruct I as [<-|[<-|[]]]; vm_compute; reflexivity. Qed.
Lemma run_pick {S L R} (step : S -> L -> option S) s0 ls (f : S -> R) r : option_map f (run step s0 ls) = Some r -> exists s, reach step s0 s /\ f s = r.
Proof. destruct (run step s0 ls) as [s|] eqn:E; [|discriminate]. intros [= X]. exists s. split; [exists ls; exact E|exact X]. Qed.
Example C75_esp_case : expand Esp32c3 [] esp_items = Some esp_x /\ exists s, @yreach nat (th (lapp_of esp_x)) (sys_of esp_x (lapp_of esp_x) true []) treg0 treg0 s /\ thresh (m_mask (y_m s)) = 3 /\ List.length (m_stack (y_m s)) = 2.
Proof.
  split; [exact esp_accepted|]. destruct (@run_pick _ _ _ (@ystep nat (th (lapp_of esp_x)) (sys_of esp_x (lapp_of esp_x) true [])) (@y_init nat (th (lapp_of esp_x)) treg0 treg0) [YRaise 0; YTake 0; YHandler; YLock 1; YMicro; YMicro; YLock 0; YMicro; YMicro]
    (fun s => (thresh (m_mask (y_m s)), List.length (m_stack (y_m s)))) (3, 2)) as (s & R & X); [vm_compute; reflexivity|]. exists s. split; [exact R|]. injection X as X1 X2. auto.
Qed.
(** C17 in this application: the first instance of [log] has ended; [work] is in the middle of spawning the second (the
    executor is allocated, its future not yet written) when UART0 preempts it, and [uart] calls the waker it got from the
    first: the dispatcher of [log] preempts [uart] and polls the future that has completed. *)
Definition ex_bad : list (ylabel nat) := ex_run ++
  [YUser (Some 2) 3 (Some 8); YCall; YCall; YCall; YTake 2; YHandler; YHandler; YUser (Some 3) 4 (Some 10); YRaise 0; YTake 0; YHandler; YUser (Some 3) 4 None; YCall; YTake 3; YHandler; YHandler].
Theorem C17_accepted_application_refuted : exists disp items x (s : sys nat (bp 3 (lapp_of x))), expand (Cortex 3) disp items = Some x /\ @yreach nat (bp 3 (lapp_of x)) (sys_of x (lapp_of x) false []) breg0 breg0 s /\ bad_poll s.
Proof.
  exists ex_disp, ex_items, ex_x. eexists. split; [exact ex_accepted|]. split; [exists ex_bad; apply ex_run_ok; vm_compute; reflexivity|]. exists (Some 3). vm_compute. reflexivity.
Qed.
Print Assumptions C75_who_polls.
Print Assumptions C75_spawned_polled.
Print Assumptions C75_woken_polled.
Print Assumptions C75_raised_ran.
Print Assumptions C75_basepri_comes_to_rest.
Print Assumptions C75_basepri_reaches_rest.
Print Assumptions C75_basepri_mutual_exclusion.
Print Assumptions C75_source_comes_to_rest.
Print Assumptions C75_source_reaches_rest.
Print Assumptions C75_esp_comes_to_rest.
Print Assumptions C75_esp_reaches_rest.
Print Assumptions C17_bad_poll_preempts_spawner_partial.
Print Assumptions C17_no_bad_poll_downward_partial.
Print Assumptions C17_accepted_application_refuted.
