(** C69: the SysTimer monotonic beside an application on ESP32-C3 and ESP32-C6. *)
From Verif Require Import Base LTS AppModel AppSpec AppProofs AppAnalysis AppChecks AppFinal AppRun AppStart AppStartProofs AppAcceptChecks AppRoute PropertiesApp PropertiesRoute.
Set Implicit Arguments.
Open Scope string_scope. Open Scope list_scope.

(* rtic-monotonics/src/esp32c3.rs 50-69 and esp32c6.rs 48-69, [_start] (called from [init]): source 37 (C3) or 57 (C6), the first
   comparator of the system timer, is routed to CPU interrupt 31, which gets priority 15 and is enabled.  The other writes of
   [_start] set up the timer.  [init] runs after all configuration statements and nothing is configured after it, so this is the
   matrix the application runs with. *)
Definition timer_source : ident := "SYSTIMER_TARGET0".
Definition timer_started (h : intc) : intc := ic_enable timer_source 15 31 h.
(* esp32c3.rs 154-160, esp32c6.rs 155-161: the monotonic's handler is exported under this name *)
Definition timer_symbol : string := "interrupt31".

Lemma timer_symbol_31 : timer_symbol = vector_symbol 31. Proof. reflexivity. Qed.

Section Mono.
Context (b : bkind) (disp : list ident) (items : list item) (x : expansion) (Hx : expand b disp items = Some x) (Hb : b = Esp32c3 \/ b = Esp32c6).

Lemma configured_length : length (configured b (x_app x) (x_ints x)) <= length (vectors x).
Proof.
  assert (E : length (to_configure (x_app x) (x_ints x)) = length (vectors x)) by (unfold to_configure, vectors; rewrite !app_length, !map_length; lia).
  unfold configured. destruct Hb; subst b; [lia|]. rewrite firstn_length. lia.
Qed.
Lemma route_id i p id : In (i, p, Some id) (routes b x) -> exists k, k < length (vectors x) /\ cpu_id b k = Some id.
Proof.
  intros I. apply indexed in I as (k & E & Ek). exists k. split; [|now rewrite Ek]. pose proof configured_length. assert (k < length (configured b (x_app x) (x_ints x))) by (apply nth_error_Some; congruence). lia.
Qed.

(** Few enough handlers: at most 15 on C3, 11 on C6. *)
Definition fits : Prop := length (vectors x) <= match b with Esp32c3 => 15 | _ => 11 end.
Lemma below_31 i p id : fits -> In (i, p, Some id) (routes b x) -> id < 31.
Proof. unfold fits. intros F I. destruct (route_id _ _ _ I) as (k & L & E). destruct Hb; subst b; simpl in *; injection E as <-; lia. Qed.

(** Then the names the linker sees are distinct: no handler of the application is exported as the timer's. *)
Theorem C69_symbol_free_partial : fits -> forall i, ~ In timer_symbol (handler_config b x i).
Proof.
  intros F i I. apply (in_config b x i) in I as (p & id & I & S). rewrite timer_symbol_31 in S. apply vector_symbol_inj in S as <-. pose proof (below_31 _ _ _ F I). lia.
Qed.
(** every interrupt of the application reaches its own handler at its priority, as without the monotonic (C61), *)
Theorem C69_tasks_unaffected_partial s pc i p ts : fits -> i <> timer_source -> sreach b x s -> t_pc s = SThread :: pc -> In (i, p, ts) (vectors x) ->
  delivers b x (timer_started (t_hw s)) i p (i, p, ts) /\ forall q w, delivers b x (timer_started (t_hw s)) i q w -> q = p /\ w = (i, p, ts).
Proof.
  intros F Ni R E V. assert (L : b = Esp32c6 -> length (vectors x) <= 12) by (unfold fits in F; intros ->; lia).
  destruct (@C61_interrupt_reaches_handler_partial b disp items x Hx Hb s pc i p ts L R E V) as [D U].
  assert (K : forall q w, delivers b x (timer_started (t_hw s)) i q w <-> delivers b x (t_hw s) i q w).
  { intros q w. unfold delivers, timer_started, ic_enable. cbn [i_map i_pri i_en].
    assert (En : ieq timer_source i = false) by (destruct (ieq timer_source i) eqn:Ei; [apply ieq_spec in Ei; congruence|reflexivity]). rewrite En.
    assert (S : forall id, In (vector_symbol id) (handler_config b x (fst (fst w))) -> Nat.eqb 31 id = false).
    { intros id I. apply (in_config b x) in I as (p' & id' & I & S). apply vector_symbol_inj in S as <-. apply Nat.eqb_neq. pose proof (below_31 _ _ _ F I). lia. }
    split; intros (id & M & A & P & W & S'); exists id; pose proof (S _ S') as N; rewrite N in *; auto. }
  split; [apply K; exact D|]. intros q w H. apply U. apply K. exact H.
Qed.
(** and the timer's interrupt has a CPU interrupt of its own, linked to the monotonic's handler, at a priority above every task. *)
Theorem C69_timer_delivered_partial s pc : fits -> (forall p ts, ~ In (timer_source, p, ts) (vectors x)) -> sreach b x s -> t_pc s = SThread :: pc ->
  i_map (timer_started (t_hw s)) timer_source = Some 31 /\ i_en (timer_started (t_hw s)) 31 = true /\ i_pri (timer_started (t_hw s)) 31 = 15 /\
  (forall j, i_map (timer_started (t_hw s)) j = Some 31 -> j = timer_source) /\
  (forall q w, ~ delivers b x (timer_started (t_hw s)) timer_source q w) /\
  (forall i p ts, In (i, p, ts) (vectors x) -> p < 15).
Proof.
  intros F Nt R E. destruct (@expand_accepted _ _ _ _ Hx) as [a H].
  split; [reflexivity|]. split; [reflexivity|]. split; [reflexivity|]. split; [|split].
  - intros j. unfold timer_started, ic_enable. cbn [i_map]. destruct (ieq timer_source j) eqn:Ej; [apply ieq_spec in Ej; auto|].
    intros M. exfalso. destruct (@done_routes b disp items x Hx s pc R E) as (d & Eh & D & _). rewrite Eh in M. apply hw_map_in in M as [p M]. apply D in M. pose proof (below_31 _ _ _ F M). lia.
  - intros q w (id & M & _ & _ & _ & S). change (i_map (timer_started (t_hw s)) timer_source) with (Some 31) in M. injection M as <-.
    exact (C69_symbol_free_partial F _ S).
  - intros i p ts V. assert (L : b = Esp32c6 -> length (vectors x) <= 12) by (unfold fits in F; intros ->; lia).
    pose proof (vec_configured H _ V L) as C. pose proof (ac_prio H) as P. rewrite forallb_forall in P. specialize (P _ C). simpl in P.
    clear - Hb P. destruct Hb; subst b; simpl in P; apply andb_prop in P as [P _]; apply Nat.ltb_lt in P; exact P.
Qed.
End Mono.

(** With one handler more the CPU interrupt of the timer is given to a task as well: an accepted application whose start-up completes
    exports a second [interrupt31], and if that were let pass, the task's interrupt would run at the timer's priority. *)
Definition full_items (n : nat) : list item :=
  base [] [] ++ map (fun i => hw (append "t" (digits 3 i)) (append "INT" (digits 3 i)) 1 [] None) (seq 0 n).
Theorem C69_sixteenth_handler_refuted : exists x s, expand Esp32c3 [] (full_items 16) = Some x /\ length (vectors x) = 16 /\ sreach Esp32c3 x s /\ t_pc s = [SThread] /\
  In ("INT15", 1, ["t15"]) (vectors x) /\ In timer_symbol (handler_config Esp32c3 x "INT15") /\
  i_map (timer_started (t_hw s)) "INT15" = Some 31 /\ i_map (timer_started (t_hw s)) timer_source = Some 31 /\ i_pri (timer_started (t_hw s)) 31 = 15.
Proof.
  destruct (expand Esp32c3 [] (full_items 16)) as [x|] eqn:Ex; [|vm_compute in Ex; discriminate].
  destruct (run (sstep x) (s_init Esp32c3 x true) (repeat TMain (length (main_code Esp32c3 x) - 1))) as [s|] eqn:E.
  2:{ vm_compute in Ex. injection Ex as <-. vm_compute in E. discriminate. }
  exists x, s. split; [reflexivity|]. vm_compute in Ex. injection Ex as <-. split; [vm_compute; reflexivity|]. split; [exists true; eexists; exact E|].
  vm_compute in E. injection E as <-. split; [reflexivity|]. vm_compute. repeat split; tauto.
Qed.
Theorem C69_twelfth_handler_refuted : exists x s, expand Esp32c6 [] (full_items 12) = Some x /\ length (vectors x) = 12 /\ sreach Esp32c6 x s /\ t_pc s = [SThread] /\
  In ("INT11", 1, ["t11"]) (vectors x) /\ In timer_symbol (handler_config Esp32c6 x "INT11") /\
  i_map (timer_started (t_hw s)) "INT11" = Some 31 /\ i_map (timer_started (t_hw s)) timer_source = Some 31 /\ i_pri (timer_started (t_hw s)) 31 = 15.
Proof.
  destruct (expand Esp32c6 [] (full_items 12)) as [x|] eqn:Ex; [|vm_compute in Ex; discriminate].
  destruct (run (sstep x) (s_init Esp32c6 x true) (repeat TMain (length (main_code Esp32c6 x) - 1))) as [s|] eqn:E.
  2:{ vm_compute in Ex. injection Ex as <-. vm_compute in E. discriminate. }
  exists x, s. split; [reflexivity|]. vm_compute in Ex. injection Ex as <-. split; [vm_compute; reflexivity|]. split; [exists true; eexists; exact E|].
  vm_compute in E. injection E as <-. split; [reflexivity|]. vm_compute. repeat split; tauto.
Qed.
(** Fifteen handlers: the hypotheses are met. *)
Example C69_case : exists x s, expand Esp32c3 [] (full_items 15) = Some x /\ @fits Esp32c3 x /\ length (vectors x) = 15 /\ sreach Esp32c3 x s /\ t_pc s = [SThread] /\
  In ("INT14", 1, ["t14"]) (vectors x) /\ (forall p ts, ~ In (timer_source, p, ts) (vectors x)).
Proof.
  destruct (expand Esp32c3 [] (full_items 15)) as [x|] eqn:Ex; [|vm_compute in Ex; discriminate].
  destruct (run (sstep x) (s_init Esp32c3 x true) (repeat TMain (length (main_code Esp32c3 x) - 1))) as [s|] eqn:E.
  2:{ vm_compute in Ex. injection Ex as <-. vm_compute in E. discriminate. }
  exists x, s. split; [reflexivity|]. vm_compute in Ex. injection Ex as <-. split; [unfold fits; vm_compute; lia|]. split; [vm_compute; reflexivity|]. split; [exists true; eexists; exact E|].
  vm_compute in E. injection E as <-. split; [reflexivity|]. split; [vm_compute; tauto|]. intros p ts I. vm_compute in I. repeat (destruct I as [I|I]; [discriminate|]). destruct I.
Qed.
Print Assumptions C69_symbol_free_partial.
Print Assumptions C69_tasks_unaffected_partial.
Print Assumptions C69_timer_delivered_partial.
Print Assumptions C69_sixteenth_handler_refuted.
Print Assumptions C69_twelfth_handler_refuted.
