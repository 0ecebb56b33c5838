(** C61: interrupts reach their handlers on ESP32. *)
From Verif Require Import Base LTS AppModel AppSpec AppProofs AppAnalysis AppChecks AppFinal AppRun AppStart AppStartProofs AppAcceptChecks AppRoute PropertiesApp.
Set Implicit Arguments.
Open Scope string_scope. Open Scope list_scope.

Lemma vector_symbol_inj i j : vector_symbol i = vector_symbol j -> i = j.
Proof. intros H. apply AppAcceptChecks.append_inj in H. rewrite <- (@digits_value (S i) i), <- (@digits_value (S j) j) by lia. now rewrite H. Qed.
Lemma NoDup_prefix {V} (l m : list V) : NoDup (l ++ m) -> NoDup l.
Proof. induction l as [|v l IH]; simpl; intros N; [constructor|]. inversion N as [|? ? N1 N2]; subst. constructor; [intros I; apply N1, in_app_iff; auto|auto]. Qed.
Lemma indexed {V W} (f : nat -> W) (l : list V) s v w : In (v, w) (combine l (map f (seq s (length l)))) <-> exists k, nth_error l k = Some v /\ w = f (s + k).
Proof.
  revert s. induction l as [|u l IH]; intros s; simpl; [split; [tauto|intros ([|k] & E & _); discriminate]|]. rewrite IH. split.
  - intros [[= -> <-]|(k & E & ->)]; [exists 0; split; [reflexivity|f_equal; lia]|exists (S k); split; [exact E|f_equal; lia]].
  - intros ([|k] & E & ->); [left; simpl in E; injection E as ->; f_equal; f_equal; lia|right; exists k; split; [exact E|f_equal; lia]].
Qed.
(** The matrix after the configuration statements [d], if they agree on source [i] and CPU interrupt [id]. *)
Lemma hw_map_in d i id : i_map (hw_after d) i = Some id -> exists p, In (SConfigure i p (Some id)) d.
Proof.
  induction d as [|st d IH] using rev_ind; [discriminate|]. rewrite hw_after_snoc. intros E. assert (C : i_map (hw_after d) i = Some id \/ exists p, st = SConfigure i p (Some id)).
  { destruct st as [|j q [k|]| | | | |]; auto. simpl in E. destruct (ieq j i) eqn:Ej; [|auto]. apply ieq_spec in Ej as ->. injection E as ->. eauto. }
  destruct C as [C|[p ->]]; [destruct (IH C) as [p I]; exists p|exists p]; apply in_app_iff; simpl; auto.
Qed.
Lemma hw_regs d i p id : In (SConfigure i p (Some id)) d -> (forall q k, In (SConfigure i q (Some k)) d -> k = id) -> (forall j q, In (SConfigure j q (Some id)) d -> q = p) ->
  i_map (hw_after d) i = Some id /\ i_en (hw_after d) id = true /\ i_pri (hw_after d) id = p.
Proof.
  induction d as [|st d IH] using rev_ind; [intros []|]. intros I U V. rewrite hw_after_snoc.
  assert (U' : forall q k, In (SConfigure i q (Some k)) d -> k = id) by (intros; eapply U; apply in_app_iff; eauto).
  assert (V' : forall j q, In (SConfigure j q (Some id)) d -> q = p) by (intros; eapply V; apply in_app_iff; eauto).
  assert (C : st = SConfigure i p (Some id) \/ In (SConfigure i p (Some id)) d) by (apply in_app_iff in I as [I|[I|[]]]; auto).
  destruct C as [->|C].
  - simpl. rewrite (proj2 (ieq_spec i i) eq_refl), Nat.eqb_refl. auto.
  - destruct (IH C U' V') as (A & B & D). destruct st as [|j q [k|]| | | | |]; auto. simpl. destruct (ieq j i) eqn:Ej.
    + apply ieq_spec in Ej as ->. assert (k = id) as -> by (eapply U; apply in_app_iff; simpl; eauto). rewrite Nat.eqb_refl. assert (q = p) as -> by (eapply V; apply in_app_iff; simpl; eauto). auto.
    + destruct (Nat.eqb_spec k id) as [->|N]; [|auto]. assert (q = p) as -> by (eapply V; apply in_app_iff; simpl; eauto). auto.
Qed.

Section Route.
Context (b : bkind) (disp : list ident) (items : list item) (x : expansion) (Hx : expand b disp items = Some x) (Hb : b = Esp32c3 \/ b = Esp32c6).
Lemma not_slic : b <> Slic. Proof. destruct Hb; subst; discriminate. Qed.
Lemma cpu_id_some k : exists id, cpu_id b k = Some id. Proof. destruct Hb; subst; simpl; eauto. Qed.
Lemma cpu_id_inj j k : cpu_id b j = cpu_id b k -> j = k. Proof. destruct Hb; subst; simpl; intros [= E]; lia. Qed.
Lemma route_some i p k : In (i, p, k) (routes b x) -> exists id, k = Some id.
Proof. intros I. apply indexed in I as (j & _ & ->). apply cpu_id_some. Qed.
Lemma configured_names : NoDup (map fst (configured b (x_app x) (x_ints x))).
Proof.
  destruct (@expand_accepted _ _ _ _ Hx) as [a H]. pose proof (@C11_handlers_distinct b disp items x Hx not_slic) as N.
  assert (T : NoDup (map fst (to_configure (x_app x) (x_ints x)))).
  { unfold to_configure. rewrite map_app, !map_map. unfold vectors in N. rewrite map_app, !map_map in N. simpl in *. eapply Permutation.Permutation_NoDup; [apply Permutation.Permutation_app_comm|exact N]. }
  unfold configured. destruct Hb; subst b; [exact T|]. rewrite <- (firstn_skipn 12 (to_configure (x_app x) (x_ints x))), map_app in T. exact (NoDup_prefix _ _ T).
Qed.
Lemma route_cpu i p i' p' k : In (i, p, k) (routes b x) -> In (i', p', k) (routes b x) -> i = i' /\ p = p'.
Proof. intros I J. apply indexed in I as (m & E & ->). apply indexed in J as (m' & E' & Em). apply cpu_id_inj in Em. assert (m = m') as <- by lia. rewrite E in E'. injection E' as -> ->. auto. Qed.
Lemma route_src i p p' k k' : In (i, p, k) (routes b x) -> In (i, p', k') (routes b x) -> p = p' /\ k = k'.
Proof.
  intros I J. apply indexed in I as (m & E & ->). apply indexed in J as (m' & E' & ->). pose proof configured_names as N.
  assert (m = m') as <-. { apply (proj1 (NoDup_nth_error (map fst (configured b (x_app x) (x_ints x)))) N); [rewrite map_length; apply nth_error_Some; congruence|]. rewrite !nth_error_map, E, E'. reflexivity. }
  rewrite E in E'. injection E' as ->. auto.
Qed.
Lemma in_config i s : In s (handler_config b x i) <-> exists p id, In (i, p, Some id) (routes b x) /\ s = vector_symbol id.
Proof.
  unfold handler_config. rewrite in_flat_map. split.
  - intros ([[j p] [id|]] & I & S); simpl in S; [|destruct S]. destruct (ieq j i) eqn:E; [|destruct S]. apply ieq_spec in E as ->. destruct S as [<-|[]]. eauto.
  - intros (p & id & I & ->). exists (i, p, Some id). split; [exact I|]. simpl. rewrite (proj2 (ieq_spec i i) eq_refl). now left.
Qed.
Lemma done_routes s pc : sreach b x s -> t_pc s = SThread :: pc -> exists d, t_hw s = hw_after d /\ (forall i p id, In (SConfigure i p (Some id)) d <-> In (i, p, Some id) (routes b x)) /\
  (forall i p id, In (SConfigure i p (Some id)) d -> id < 32).
Proof.
  destruct (@expand_accepted _ _ _ _ Hx) as [a H]. intros R E. destruct (started H R (or_intror (ex_intro _ pc E))) as (d & I & D & _). exists d. split; [exact (si_hw I)|]. split; [|exact (si_ids I)]. intros i p id. split; intros J.
  - assert (M : In (SConfigure i p (Some id)) (main_code b x)) by (rewrite (si_code I); apply in_app_iff; auto). rewrite (main_split b x) in M. apply in_app_iff in M as [M|[M|[M|[]]]]; try discriminate.
    apply (in_before H) in M as [M|[(i' & p' & k' & [= <- <- <-] & M)|[M|[(n & r & M & _)|(n & r & M & _)]]]]; try discriminate. exact M.
  - apply D. apply (in_before H). right. left. exists i, p, (Some id). auto.
Qed.

(** Once start-up is over: an interrupt of the application, when it occurs, runs its own handler, at the handler's priority, and
    nothing else (ESP32-C6: with at most twelve handlers). *)
Theorem C61_interrupt_reaches_handler_partial s pc i p ts : (b = Esp32c6 -> length (vectors x) <= 12) -> sreach b x s -> t_pc s = SThread :: pc -> In (i, p, ts) (vectors x) ->
  delivers b x (t_hw s) i p (i, p, ts) /\ forall q w, delivers b x (t_hw s) i q w -> q = p /\ w = (i, p, ts).
Proof.
  intros Hc R E V. destruct (@expand_accepted _ _ _ _ Hx) as [a H]. destruct (done_routes R E) as (d & -> & D & _).
  destruct (proj1 (configured_route b x i p) (vec_configured H _ V Hc)) as [k K]. destruct (route_some _ _ _ K) as [id ->].
  destruct (@hw_regs d i p id) as (M & En & Pr).
  { now apply D. } { intros q k Q. apply D in Q. destruct (route_src _ _ _ _ _ K Q) as [_ [= ->]]. reflexivity. } { intros j q Q. apply D in Q. now destruct (route_cpu _ _ _ _ _ K Q) as [_ ->]. }
  split.
  - exists id. repeat split; auto. apply in_config. exists p, id. auto.
  - intros q w (id' & M' & En' & Pr' & W & S). rewrite M in M'. injection M' as <-. split; [congruence|]. apply in_config in S as (p' & id' & I & S). apply vector_symbol_inj in S as <-.
    destruct (route_cpu _ _ _ _ _ K I) as [Ei _]. destruct w as [[i' q'] ts']. simpl in Ei. subst i'.
    pose proof (@C11_handlers_distinct b disp items x Hx not_slic) as N. clear - N V W.
    induction (vectors x) as [|u l IH]; [destruct V|]. simpl in N. inversion N as [|? ? N1 N2]; subst. destruct V as [->|V], W as [U|W].
    + congruence.
    + exfalso. apply N1. simpl. apply in_map_iff. exists (i, q', ts'). auto.
    + exfalso. subst u. apply N1. simpl. apply in_map_iff. exists (i, p, ts). auto.
    + auto.
Qed.
(** No other source is routed to the handler of [i], and no CPU interrupt outside 16..31 is touched. *)
Theorem C61_no_foreign_interrupt s pc j q i p ts : sreach b x s -> t_pc s = SThread :: pc -> delivers b x (t_hw s) j q (i, p, ts) -> j = i /\ q = p.
Proof.
  intros R E (id & M & En & Pr & V & S). destruct (done_routes R E) as (d & Eh & D & _). rewrite Eh in *. apply hw_map_in in M as [p1 M]. apply D in M. simpl in S. apply in_config in S as (p2 & id' & I & S). apply vector_symbol_inj in S as <-.
  destruct (route_cpu _ _ _ _ _ M I) as [-> ->]. split; [auto|]. destruct (@expand_accepted _ _ _ _ Hx) as [a H].
  destruct (@hw_regs d i p2 id) as (_ & _ & Pr2).
  { now apply D. } { intros q' k Q. apply D in Q. now destruct (route_src _ _ _ _ _ I Q) as [_ [= ->]]. } { intros j' q' Q. apply D in Q. now destruct (route_cpu _ _ _ _ _ I Q) as [_ ->]. }
  rewrite <- Pr, Pr2. assert (C : In (i, p2) (configured b (x_app x) (x_ints x))) by (apply configured_route; eauto). apply (configured_vec H) in C as [ts' V'].
  pose proof (@C11_handlers_distinct b disp items x Hx not_slic) as N. clear - N V V'.
  induction (vectors x) as [|u l IH]; [destruct V|]. simpl in N. inversion N as [|? ? N1 N2]; subst. destruct V as [->|V], V' as [U|V'].
  - congruence.
  - exfalso. apply N1. simpl. apply in_map_iff. exists (i, p2, ts'). auto.
  - exfalso. subst u. apply N1. simpl. apply in_map_iff. exists (i, p, ts). auto.
  - auto.
Qed.
Theorem C61_reserved_untouched s pc j id : sreach b x s -> t_pc s = SThread :: pc -> i_map (t_hw s) j = Some id -> 16 <= id < 32 /\ (b = Esp32c6 -> 20 <= id).
Proof.
  intros R E M. destruct (done_routes R E) as (d & Eh & D & L). rewrite Eh in M. apply hw_map_in in M as [p M]. pose proof (L _ _ _ M). apply D in M. apply indexed in M as (k & _ & Ek). destruct Hb; subst b; simpl in Ek; injection Ek as ->; split; try lia; discriminate.
Qed.
End Route.

(** A C3 application with two dispatchers and two hardware tasks: the ids and the exported names. *)
Definition esp_items : list item := base [] [] ++ [hw "uart" "UART0" 3 [] None; hw "spi" "SPI2" 2 [] None; sw "s1" 1 [] None []; sw "s4" 4 [] None []].
Example C61_case : exists x s, expand Esp32c3 ["FROM_CPU_INTR1"; "FROM_CPU_INTR0"] esp_items = Some x /\ sreach Esp32c3 x s /\ t_pc s = [SThread] /\
  In ("SPI2", 2, ["spi"]) (vectors x) /\ map (i_map (t_hw s)) ["FROM_CPU_INTR0"; "FROM_CPU_INTR1"; "UART0"; "SPI2"; "GPIO"] = [Some 17; Some 16; Some 18; Some 19; None] /\
  map (i_pri (t_hw s)) [15; 16; 17; 18; 19] = [0; 1; 4; 3; 2] /\ map (i_en (t_hw s)) [15; 16; 19; 20] = [false; true; true; false] /\
  handler_config Esp32c3 x "SPI2" = ["interrupt19"].
Proof.
  destruct (expand Esp32c3 ["FROM_CPU_INTR1"; "FROM_CPU_INTR0"] esp_items) as [x|] eqn:Ex; [|vm_compute in Ex; discriminate].
  destruct (run (sstep x) (s_init Esp32c3 x true) (repeat TMain (length (main_code Esp32c3 x) - 1))) as [s|] eqn:E.
  2:{ vm_compute in Ex. injection Ex as <-. vm_compute in E. discriminate. }
  exists x, s. split; [reflexivity|]. split; [exists true; eexists; exact E|]. vm_compute in Ex. injection Ex as <-. vm_compute in E. injection E as <-. vm_compute. repeat split; auto.
Qed.
(** The thirteenth interrupt of an ESP32-C6 application never reaches its handler. *)
Theorem C61_interrupt_reaches_handler_refuted : exists items x s i p ts, expand Esp32c6 [] items = Some x /\ sreach Esp32c6 x s /\ t_pc s = [SThread] /\
  In (i, p, ts) (vectors x) /\ forall q w, ~ delivers Esp32c6 x (t_hw s) i q w.
Proof.
  destruct (expand Esp32c6 [] many_items) as [x|] eqn:Ex; [|vm_compute in Ex; discriminate].
  destruct (run (sstep x) (s_init Esp32c6 x true) (repeat TMain (length (main_code Esp32c6 x) - 1))) as [s|] eqn:E.
  2:{ vm_compute in Ex. injection Ex as <-. vm_compute in E. discriminate. }
  exists many_items, x, s, "INT12", 1, ["t12"]. split; [exact Ex|]. split; [exists true; eexists; exact E|]. vm_compute in Ex. injection Ex as <-. vm_compute in E. injection E as <-.
  split; [reflexivity|]. split; [vm_compute; tauto|]. intros q w (id & M & _). vm_compute in M. discriminate.
Qed.
Print Assumptions C61_interrupt_reaches_handler_partial.
Print Assumptions C61_no_foreign_interrupt.
Print Assumptions C61_reserved_untouched.
Print Assumptions C61_interrupt_reaches_handler_refuted.
