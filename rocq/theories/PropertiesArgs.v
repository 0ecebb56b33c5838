(** Property C81: the arguments of [#[app(..)]] mean what is written.
    Vocabulary: ArgsSpec.v (how the arguments are written, what they say), AppSpec.v (the functions of an application);
    parser and generated code: ArgsModel.v. *)
From Coq Require Import Permutation.
From Verif Require Import Base AppModel AppSpec AppProofs AppAnalysis AppFinal AttrModel AttrSpec AttrProofs SigModel RefModel RefProofs ArgsModel ArgsSpec ArgsProofs PropertiesLocal PropertiesAttr.
Set Implicit Arguments.
Open Scope string_scope. Open Scope list_scope. Open Scope nat_scope.

(** * What is accepted *)
(** Exactly well-formed arguments, none given twice, the device among them; the result is what they say. *)
Theorem C81_arguments bk l a : parse_args bk l = Some a <-> exists args, app_toks bk l args /\ NoDup (map aname args) /\ says_args args a.
Proof. exact (parse_args_iff bk l a). Qed.
Theorem C81_unambiguous bk l args args' a a' : app_toks bk l args -> app_toks bk l args' -> NoDup (map aname args) -> says_args args a -> says_args args' a' -> args = args' /\ a = a'.
Proof.
  intros H H' N S S'. pose proof (app_det H H') as <-. split; [reflexivity|].
  assert (E : parse_args bk l = Some a) by (apply parse_args_iff; eauto). assert (E' : parse_args bk l = Some a') by (apply parse_args_iff; eauto). congruence.
Qed.
Theorem C81_twice_refused bk l args : app_toks bk l args -> ~ NoDup (map aname args) -> parse_args bk l = None.
Proof. intros H N. destruct (parse_args bk l) as [a|] eqn:E; [|reflexivity]. apply parse_args_iff in E as (args' & H' & N' & _). now rewrite (app_det H H') in N. Qed.
Theorem C81_device_needed bk l args : app_toks bk l args -> (forall p, ~ In (ADevice p) args) -> parse_args bk l = None.
Proof. intros H N. destruct (parse_args bk l) as [a|] eqn:E; [|reflexivity]. apply parse_args_iff in E as (args' & H' & _ & D & _). rewrite (app_det H H') in N. destruct (N _ D). Qed.
(** The order of the arguments does not matter. *)
Theorem C81_order_irrelevant bk l l' args args' : app_toks bk l args -> app_toks bk l' args' -> Permutation args args' -> parse_args bk l = parse_args bk l'.
Proof.
  intros H H' P.
  assert (G : forall l l' args args' a, app_toks bk l args -> app_toks bk l' args' -> Permutation args args' -> parse_args bk l = Some a -> parse_args bk l' = Some a).
  { clear. intros l l' args args' a H H' P E. apply parse_args_iff in E as (args0 & H0 & N & S). rewrite <- (app_det H H0) in N, S. apply parse_args_iff. exists args'. split; [exact H'|]. split; [eapply Permutation_NoDup; [apply Permutation_map; exact P|exact N]|].
    assert (I1 : forall z, In z args -> In z args') by (intros z; apply Permutation_in; exact P). assert (I2 : forall z, In z args' -> In z args) by (intros z; apply Permutation_in; now apply Permutation_sym).
    destruct S as (S1 & S2 & S3 & S4 & S5 & S6 & S7 & S8 & S9). repeat split; auto; intros Z; [apply S3|apply S5|apply S7|apply S9]; intros v I0; exact (Z v (I1 _ I0)). }
  destruct (parse_args bk l) as [a|] eqn:E; [symmetry; eapply G; [exact H|exact H'|exact P|exact E]|].
  destruct (parse_args bk l') as [a|] eqn:E'; [|reflexivity]. rewrite (G _ _ _ _ _ H' H (Permutation_sym P) E') in E. discriminate.
Qed.
(** The application the other properties speak about ([expand]) has the dispatchers written here.  [bk]: SLIC with the CLINT. *)
Theorem C81_application b bk toks l aa x : expand_args b bk toks l = Some (aa, x) ->
  exists args items, app_toks bk toks args /\ NoDup (map aname args) /\ says_args args aa /\ read_items l = Some items /\ expand b (map fst (aa_disp aa)) items = Some x /\
    (b <> Slic -> ap_disp (x_app x) = map fst (aa_disp aa)) /\ (b = Slic -> aa_disp aa = []) /\ (bk = true -> exists i, In (ABackend i) args).
Proof.
  unfold expand_args. destruct (parse_args bk toks) as [aa0|] eqn:P; [|discriminate]. destruct (expand_tokens b (map fst (aa_disp aa0)) l) as [x0|] eqn:X; [|discriminate].
  destruct (bk && negb (is_some (aa_backend aa0))) eqn:B; [discriminate|]. intros [= <- <-]. apply parse_args_iff in P as (args & H & N & S). unfold expand_tokens in X. destruct (read_items l) as [items|] eqn:R; [|discriminate].
  exists args, items. repeat split; auto; try apply S.
  - intros NS. destruct (@expand_accepted _ _ _ _ X) as [a A]. pose proof (ac_pre A) as E. pose proof (pd_disp (ac_parsed A)) as D. destruct b; try congruence; cbn in E; injection E as E; rewrite <- E; exact D.
  - intros ->. destruct (@expand_accepted _ _ _ _ X) as [a A]. pose proof (ac_pre A) as E. pose proof (pd_disp (ac_parsed A)) as D. cbn [preprocess] in E. rewrite D in E. destruct (aa_disp aa0); [reflexivity|discriminate].
  - intros ->. cbn in B. destruct S as (_ & _ & _ & _ & _ & _ & _ & S1 & S2). destruct (aa_backend aa0) as [i|] eqn:Eb; [|discriminate].
    destruct (flat_map (fun a => match a with ABackend v => [v] | _ => [] end) args) as [|v0 vs] eqn:E.
    + assert (Z : forall v, ~ In (ABackend v) args) by (intros v I0; assert (Y : In v []) by (rewrite <- E; apply in_flat_map; eexists; split; [exact I0|now left]); destruct Y). specialize (S2 Z). discriminate.
    + assert (Y : In v0 (v0 :: vs)) by now left. rewrite <- E in Y. apply in_flat_map in Y as ([] & I1 & I2); try destruct I2; subst; [|contradiction]. eauto.
Qed.
Print Assumptions C81_arguments.
Print Assumptions C81_unambiguous.
Print Assumptions C81_twice_refused.
Print Assumptions C81_device_needed.
Print Assumptions C81_order_irrelevant.
Print Assumptions C81_application.

(** * What the functions are given *)
Section Ctx.
Context (b : bkind) (aa : appargs) (items : list item) (x : expansion) (Hx : expand b (map fst (aa_disp aa)) items = Some x).
Lemma ne_iff {X} (l : list X) : nonempty l = true <-> l <> []. Proof. destruct l; split; easy. Qed.
Lemma if_in {X} (c : bool) (z y : X) : In z (if c then [y] else []) <-> c = true /\ z = y. Proof. destruct c; simpl; intuition congruence. Qed.
(** Init is given the core peripherals unless [core = false], the device's unless [peripherals = false], the token, and its local
    resources if it has any. *)
Theorem C81_init_context n lo ss ls f : b <> Slic -> In (IInit n lo ss ls) items ->
  (In f (ctx_fields b aa x n) <-> (f = FCore /\ aa_core aa = true) \/ (f = FDevice (aa_device aa) /\ aa_periph aa = true) \/ f = FCs \/ (f = FLocal /\ opt_list lo <> [])).
Proof.
  intros NS I0. destruct (@expand_accepted _ _ _ _ Hx) as [a A]. destruct (pd_init_only (ac_parsed A) _ _ _ _ I0) as [-> El].
  unfold ctx_fields, ctx_of. rewrite (acc_init A), String.eqb_refl. cbn [nonempty a_local a_shared]. rewrite <- El, !app_nil_r, !in_app_iff, !if_in, ne_iff. unfold core, core_after. replace (match b with Slic => false | _ => aa_core aa end) with (aa_core aa) by (destruct b; congruence). cbn [In]. intuition.
Qed.
(** The others are given their local resources, their shared resources, and the means to spawn local tasks of their priority, if there
    are any; never the peripherals or the token. *)
Theorem C81_task_context n k p sh lo f : src_task items n k p sh lo ->
  (In f (ctx_fields b aa x n) <-> (f = FLocal /\ lo <> []) \/ (f = FShared /\ sh <> []) \/ (f = FSpawner /\ k = KSoft /\ exists u, local_task items u p)).
Proof.
  intros T. destruct (@expand_accepted _ _ _ _ Hx) as [a A]. pose proof (proj1 (@is_task_x _ _ _ _ Hx n k p sh lo) T) as T'. pose proof (@task_ctx _ _ _ _ Hx _ _ _ _ T') as C.
  unfold ctx_fields. rewrite C. cbn [a_local a_shared].
  assert (L : nonempty (local_tasks_at x p) = true <-> exists u, local_task items u p).
  { rewrite ne_iff. split.
    - intros NE. destruct (local_tasks_at x p) as [|[u t] r] eqn:E; [congruence|]. assert (I0 : In (u, t) (local_tasks_at x p)) by (rewrite E; now left). unfold local_tasks_at in I0. apply filter_In in I0 as [I0 Q]. cbn [snd] in Q. apply andb_prop in Q as [Q1 Q2]. apply Nat.eqb_eq in Q2.
      rewrite (acc_sw A) in I0. apply (pd_sw (ac_parsed A)) in I0 as (r0 & I1 & B & ->). exists u, r0. unfold sw_of, soft_prio in *. cbn in Q1, Q2. split; [exact I1|]. split; [exact B|]. split; [|exact Q2]. destruct (rt_local_task r0) as [[]|]; congruence.
    - intros (u & H) E. destruct (@local_in _ _ _ _ Hx _ _ H) as (t & I0 & Q1 & Q2). assert (I1 : In (u, t) (local_tasks_at x p)) by (unfold local_tasks_at; apply filter_In; cbn [snd]; rewrite Q1, Q2, Nat.eqb_refl; auto). rewrite E in I1. destruct I1. }
  rewrite ne_iff in L. destruct k; cbn [List.app]; rewrite !in_app_iff, !if_in, ?ne_iff; [cbn [In]; intuition congruence|cbn [In]; intuition congruence|]. rewrite L. intuition.
Qed.
(** Every field gets its value, and [Context::new] the arguments it takes; main compiles except on Cortex-M with [core = false], if
    there is any hardware task or any software task of priority above 0. *)
Theorem C81_complete_partial : complete b aa x <->
  ~ ((exists bits, b = Cortex bits) /\ aa_core aa = false /\ exists n k p sh lo, src_task items n k p sh lo /\ k <> KIdle /\ 0 < p).
Proof.
  destruct (@expand_accepted _ _ _ _ Hx) as [a A].
  assert (Q : nonempty (to_configure (x_app x) (x_ints x)) = true <-> exists n k p sh lo, src_task items n k p sh lo /\ k <> KIdle /\ 0 < p).
  { rewrite ne_iff. unfold to_configure. split.
    - intros NE. destruct (x_ints x) as [|[q d] r] eqn:E.
      + cbn [map List.app] in NE. destruct (ap_hw (x_app x)) as [|[n t] r] eqn:Eh; [now destruct NE|]. exists n, (KHard (hw_binds t)), (hw_prio t), (a_shared (hw_args t)), (a_local (hw_args t)).
        assert (T : is_task (x_app x) n (KHard (hw_binds t)) (hw_prio t) (hw_args t)) by (apply T_hw; rewrite Eh; now left). split; [apply (@is_task_x _ _ _ _ Hx); now destruct (hw_args t)|]. split; [discriminate|].
        destruct (wf_prio (@wf_x _ _ _ _ Hx) T) as [_ W]. specialize (W _ eq_refl). lia.
      + assert (I0 : exists d, In (q, d) (x_ints x)) by (exists d; rewrite E; now left). apply (ints_prio A) in I0 as (P & n & sh & lo & T). exists n, KSoft, q, sh, lo. repeat split; auto. discriminate.
    - intros (n & k & p & sh & lo & T & K & P) E. apply app_eq_nil in E as [E1 E2]. destruct k as [|i|]; [congruence| |].
      + apply (@is_task_x _ _ _ _ Hx) in T. inversion T as [|m t I0|]; subst. destruct (ap_hw (x_app x)); [destruct I0|discriminate].
      + assert (I0 : exists d, In (p, d) (x_ints x)) by (apply (ints_prio A); split; [exact P|eauto]). destruct I0 as [d I0]. destruct (x_ints x); [destruct I0|discriminate]. }
  split.
  - intros [_ U] ((bits & ->) & C & T). apply Q in T. unfold uses_core, declares_core, core, core_after in U. cbn [configured] in U. rewrite C, T in U. now specialize (U eq_refl).
  - intros N. split; [intros n; split; reflexivity|]. unfold uses_core, declares_core, core, core_after. intros U. destruct b as [bits| | |]; try (apply orb_prop in U as [U|U]; [exact U|discriminate]).
    destruct (aa_core aa) eqn:C; [reflexivity|]. cbn [orb configured] in U. destruct N. split; [eauto|]. split; [reflexivity|]. now apply Q.
Qed.
(** The handler of every dispatcher that is enabled or pended is there, whatever the [cfg] conditions, if no dispatcher has a [cfg]
    attribute. *)
Theorem C81_dispatcher_attributes_partial on d : (forall n at_, In (n, at_) (aa_disp aa) -> ~ In ACfg at_) ->
  In (GEnable d) (compiled b aa x on) \/ (exists t, In (GPend t d) (compiled b aa x on)) -> exists at_, In (GHandler d at_) (compiled b aa x on).
Proof.
  intros N H. assert (I0 : In d (map snd (x_ints x))).
  { unfold compiled in H. destruct H as [H|[t H]]; apply filter_In in H as [H _]; unfold gitems in H; rewrite !in_app_iff in H; destruct H as [H|[H|H]].
    - apply in_map_iff in H as (? & ? & ?); discriminate.
    - apply in_map_iff in H as (i & [= <-] & I0). now apply in_map.
    - apply in_flat_map in H as (? & _ & H). destruct (int_of _ _); [destruct H as [H|[]]; discriminate|destruct H].
    - apply in_map_iff in H as (? & ? & ?); discriminate.
    - apply in_map_iff in H as (? & ? & ?); discriminate.
    - apply in_flat_map in H as (s & _ & H). unfold int_of in H. destruct (find _ (x_ints x)) as [i|] eqn:F; [|destruct H]. destruct H as [[= <- <-]|[]]. apply find_some in F as [F _]. now apply in_map. }
  exists (disp_attrs b aa d). apply filter_In. split.
  - unfold gitems. apply in_app_iff. left. apply in_map_iff in I0 as (i & <- & I0). now apply (in_map (fun i => GHandler (snd i) (disp_attrs b aa (snd i)))).
  - apply orb_true_iff. right. cbn [kept]. apply negb_true_iff. destruct (existsb _ _) eqn:E; [|reflexivity]. apply existsb_exists in E as (y & I1 & Y). destruct y; try discriminate. unfold disp_attrs in I1. destruct b; try destruct I1; (destruct (iget (aa_disp aa) d) as [at_|] eqn:G; [|destruct I1]; apply iget_in in G; destruct (N _ _ G I1)).
Qed.
End Ctx.
Print Assumptions C81_init_context.
Print Assumptions C81_task_context.
Print Assumptions C81_complete_partial.
Print Assumptions C81_dispatcher_attributes_partial.

(** * Cases *)
(** [device = pac::stm32, dispatchers = [#[link_section = ".ram"] SSI0, QEI0], peripherals = false] *)
Definition args_toks_ex : list tok :=
  [TId "device"; TEq; TId "pac"; TSep; TId "stm32"; TComma; TId "dispatchers"; TEq; TGroup [TAttr AOther; TId "SSI0"; TComma; TId "QEI0"]; TComma; TId "peripherals"; TEq; TBool false].
Definition aargs_ex : list aarg := [ADevice (false, ["pac"; "stm32"]); ADisp [("SSI0", [AOther]); ("QEI0", [])]; APeriph false].
Lemma args_written : app_toks false args_toks_ex aargs_ex.
Proof.
  apply (@AP_cons false [TId "device"; TEq; TId "pac"; TSep; TId "stm32"]); [do 3 constructor; constructor|]. apply (@AP_cons false [TId "dispatchers"; TEq; TGroup [TAttr AOther; TId "SSI0"; TComma; TId "QEI0"]]).
  - constructor; [|repeat constructor; simpl; intuition discriminate]. apply (@DL_cons [AOther] "SSI0"). exact (DL_last [] "QEI0").
  - apply AP_last. constructor.
Qed.
Definition titems_ex : list titem :=
  [XShared "Shared" [("cnt", mkSR 1 false)]; XLocal "Local" []; XInit "init" MPath "Shared" "Local"; XTask "uart" (MList [TId "binds"; TEq; TId "UART0"; TComma; TId "shared"; TEq; TGroup [TId "cnt"]]) [];
   XTask "job" (MList [TId "priority"; TEq; TInt 2 false]) []].
Example C81_case : app_toks false args_toks_ex aargs_ex /\ NoDup (map aname aargs_ex) /\
  exists aa x, expand_args (Cortex 3) false args_toks_ex titems_ex = Some (aa, x) /\ ctx_fields (Cortex 3) aa x "init" = [FCore; FCs] /\ ctx_fields (Cortex 3) aa x "uart" = [FShared] /\ map snd (x_ints x) = ["QEI0"] /\ complete (Cortex 3) aa x.
Proof.
  split; [exact args_written|]. split; [repeat constructor; simpl; intuition discriminate|]. do 2 eexists. split; [vm_compute; reflexivity|]. split; [vm_compute; reflexivity|]. split; [vm_compute; reflexivity|]. split; [vm_compute; reflexivity|].
  split; [intros n; split; reflexivity|intros _; reflexivity].
Qed.

(** * What is written but does not count, or does harm *)
(** [core = false] on Cortex-M: the application is accepted, and what is generated uses a variable [core] that is not declared. *)
Theorem C81_core_refuted : exists toks l aa x, app_toks false toks [ADevice (false, ["pac"]); ACore false] /\ expand_args (Cortex 3) false toks l = Some (aa, x) /\ ~ complete (Cortex 3) aa x.
Proof.
  exists [TId "device"; TEq; TId "pac"; TComma; TId "core"; TEq; TBool false], (firstn 4 titems_ex). do 2 eexists. split; [|split; [vm_compute; reflexivity|]].
  - apply (@AP_cons false [TId "device"; TEq; TId "pac"]); [do 3 constructor|]. apply AP_last. constructor.
  - intros [_ H]. specialize (H eq_refl). discriminate H.
Qed.
(** [core = true] on SLIC: accepted, but init is not given the core peripherals. *)
Theorem C81_core_slic_refuted : (forall aa x n, ~ In FCore (ctx_fields Slic aa x n)) /\
  exists toks l aa x, app_toks false toks [ADevice (false, ["pac"]); ACore true] /\ expand_args Slic false toks l = Some (aa, x) /\ aa_core aa = true.
Proof.
  split.
  - intros aa x n H. unfold ctx_fields in H. destruct (ctx_of (x_app x) n) as [[[k p] ar]|]; [|destruct H]. unfold core, core_after in H.
    rewrite !in_app_iff, !if_in in H. destruct k; cbn [In List.app] in H; rewrite ?in_app_iff, ?if_in in H; cbn [In] in H; intuition discriminate.
  - exists [TId "device"; TEq; TId "pac"; TComma; TId "core"; TEq; TBool true], (firstn 4 titems_ex). do 2 eexists. split; [|split; [vm_compute; reflexivity|reflexivity]].
    apply (@AP_cons false [TId "device"; TEq; TId "pac"]); [do 3 constructor|]. apply AP_last. constructor.
Qed.
(** [dispatchers = [SSI0, #[cfg(..)] QEI0]] with the condition false: QEI0 is used all the same, it is enabled and pended, but has
    no handler; SSI0 would have been there. *)
Theorem C81_dispatcher_attributes_refuted : exists toks l aa x, app_toks false toks [ADevice (false, ["pac"]); ADisp [("SSI0", []); ("QEI0", [ACfg])]] /\ expand_args (Cortex 3) false toks l = Some (aa, x) /\
  In (GEnable "QEI0") (compiled (Cortex 3) aa x false) /\ In (GPend "job" "QEI0") (compiled (Cortex 3) aa x false) /\ (forall at_, ~ In (GHandler "QEI0" at_) (compiled (Cortex 3) aa x false)).
Proof.
  exists [TId "device"; TEq; TId "pac"; TComma; TId "dispatchers"; TEq; TGroup [TId "SSI0"; TComma; TAttr ACfg; TId "QEI0"]], titems_ex. do 2 eexists. split; [|split; [vm_compute; reflexivity|]].
  - apply (@AP_cons false [TId "device"; TEq; TId "pac"]); [do 3 constructor|]. apply AP_last. constructor; [|repeat constructor; simpl; intuition discriminate]. apply (@DL_cons [] "SSI0"). exact (DL_last [ACfg] "QEI0").
  - vm_compute. split; [auto|]. split; [auto|]. intros at_ H. intuition discriminate.
Qed.
Print Assumptions C81_core_refuted.
Print Assumptions C81_core_slic_refuted.
Print Assumptions C81_dispatcher_attributes_refuted.
