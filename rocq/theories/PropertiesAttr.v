(** Property C78: the arguments of [#[task]], [#[idle]] and [#[init]] mean what is written.
    Vocabulary: AttrSpec.v (how arguments are written), AppSpec.v (the tasks of an application); parser: AttrModel.v. *)
From Coq Require Import Permutation.
From Verif Require Import Base AppModel AppSpec AppProofs AttrModel AttrSpec AttrProofs.
Set Implicit Arguments.
Open Scope string_scope. Open Scope list_scope. Open Scope nat_scope.

(** * What is accepted *)
(** The arguments of a task are parsed exactly if they are well-formed and none is given twice; the result is what they say. *)
Theorem C78_task_arguments l g : parse_task l = Some g <-> exists args, args_toks true l args /\ NoDup (map name_of args) /\ g = meaning args.
Proof. exact (parse_task_iff l g). Qed.
(** There is one way to read them; an argument given twice is refused. *)
Theorem C78_unambiguous trail l args args' : args_toks trail l args -> args_toks trail l args' -> args = args'.
Proof. apply args_det. Qed.
Theorem C78_twice_refused l args : args_toks true l args -> ~ NoDup (map name_of args) -> parse_task l = None.
Proof. apply parse_task_twice. Qed.
(** [#[idle(..)]]: [shared] and [local]; [#[init(..)]]: [local]; no comma after the last argument. *)
Theorem C78_idle_arguments l g : parse_idle false l = Some g <->
  (l = [] /\ g = given0) \/ exists args, args_toks false l args /\ NoDup (map name_of args) /\ (forall a, In a args -> (exists x, a = GShared x) \/ (exists x, a = GLocal x)) /\ g = meaning args.
Proof.
  rewrite parse_idle_iff. split; (intros [H|(args & H1 & H2 & H3 & H4)]; [left; exact H|right; exists args; repeat split; auto]).
  - intros a I0. specialize (H3 a I0). destruct a; try contradiction; eauto.
  - intros a I0. destruct (H3 a I0) as [[x ->]|[x ->]]; exact I || reflexivity.
Qed.
Theorem C78_init_arguments l g : parse_idle true l = Some g <->
  (l = [] /\ g = given0) \/ exists args, args_toks false l args /\ NoDup (map name_of args) /\ (forall a, In a args -> exists x, a = GLocal x) /\ g = meaning args.
Proof.
  rewrite parse_idle_iff. split; (intros [H|(args & H1 & H2 & H3 & H4)]; [left; exact H|right; exists args; repeat split; auto]).
  - intros a I0. specialize (H3 a I0). destruct a; try contradiction; eauto. discriminate.
  - intros a I0. destruct (H3 a I0) as [x ->]. exact I.
Qed.

(** * Order *)
Theorem C78_order_irrelevant l l' args args' : args_toks true l args -> args_toks true l' args' -> Permutation args args' -> parse_task l = parse_task l'.
Proof.
  intros H H' P. destruct (ListDec.NoDup_dec string_dec (map name_of args)) as [N|N].
  - rewrite (parse_task_meaning H N). assert (N' : NoDup (map name_of args')) by (eapply Permutation_NoDup; [apply Permutation_map; exact P|exact N]). rewrite (parse_task_meaning H' N'). f_equal. now apply meaning_perm.
  - rewrite (parse_task_twice H N). symmetry. apply (parse_task_twice H'). intros N'. apply N. eapply Permutation_NoDup; [apply Permutation_map, Permutation_sym; exact P|exact N'].
Qed.
(** The same application with the arguments of its tasks in another order is compiled to the same code. *)
Inductive reordered : titem -> titem -> Prop :=
| RO_task n l l' args args' ins : args_toks true l args -> args_toks true l' args' -> Permutation args args' -> reordered (XTask n (MList l) ins) (XTask n (MList l') ins)
| RO_same i : reordered i i.
Theorem C78_order_application b disp is1 is2 : Forall2 reordered is1 is2 -> expand_tokens b disp is1 = expand_tokens b disp is2.
Proof.
  intros H. unfold expand_tokens. enough (E : read_items is1 = read_items is2) by now rewrite E.
  induction H as [|i j is1 is2 R H IH]; [reflexivity|]. cbn [read_items]. rewrite IH. replace (read_item j) with (read_item i); [reflexivity|]. destruct R as [n l l' args args' ins H1 H2 P|]; [|reflexivity].
  cbn [read_item meta_toks]. now rewrite (C78_order_irrelevant H1 H2 P).
Qed.

(** * Every argument counts *)
Lemma read_in l items i : read_items l = Some items -> In i l -> exists x, read_item i = Some x /\ In x items.
Proof.
  revert items. induction l as [|j l IH]; intros items E I0; [destruct I0|]. cbn [read_items] in E. destruct (read_item j) as [x|] eqn:R; [|discriminate]. destruct (read_items l) as [r|] eqn:Rl; [|discriminate]. injection E as <-. destruct I0 as [->|I0].
  - exists x. split; [exact R|now left].
  - destruct (IH r eq_refl I0) as (y & H1 & H2). exists y. split; [exact H1|now right].
Qed.
(** What a task with these arguments is: bound to the interrupt given, or else a software task; of the priority given, or else 1
    (bound) or 0; with the resources given. *)
Definition says (args : list arg) (k : kind) (p : nat) (sh : list (ident * access)) (lo : list (ident * tlocal)) : Prop :=
  (forall i, In (GBinds i) args -> k = KHard i) /\ ((forall i, ~ In (GBinds i) args) -> k = KSoft) /\
  (forall v, In (GPrio v) args -> p = v) /\ ((forall v, ~ In (GPrio v) args) -> p = match k with KHard _ => 1 | _ => 0 end) /\
  (forall x, In (GShared x) args -> sh = x) /\ ((forall x, ~ In (GShared x) args) -> sh = []) /\
  (forall x, In (GLocal x) args -> lo = map fst x) /\ ((forall x, ~ In (GLocal x) args) -> lo = []).
Lemma meaning_says args n ins items : NoDup (map name_of args) -> In (ITask n (raw_of (meaning args) ins)) items ->
  exists k p sh lo, src_task items n k p sh lo /\ says args k p sh lo.
Proof.
  intros N I0.
  assert (F1 : forall i, In (GBinds i) args -> g_binds (meaning args) = Some i) by (intros i J; apply (@pick_some _ _ args (GBinds i) i N); auto; intros b y E; destruct b; try discriminate; reflexivity).
  assert (F2 : forall i, In (GPrio i) args -> g_prio (meaning args) = Some i) by (intros i J; apply (@pick_some _ _ args (GPrio i) i N); auto; intros b y E; destruct b; try discriminate; reflexivity).
  assert (F3 : forall i, In (GShared i) args -> g_shared (meaning args) = Some i) by (intros i J; apply (@pick_some _ _ args (GShared i) i N); auto; intros b y E; destruct b; try discriminate; reflexivity).
  assert (F4 : forall i, In (GLocal i) args -> g_local (meaning args) = Some i) by (intros i J; apply (@pick_some _ _ args (GLocal i) i N); auto; intros b y E; destruct b; try discriminate; reflexivity).
  assert (A1 : (forall i, ~ In (GBinds i) args) -> g_binds (meaning args) = None) by (intros J; apply pick_none; intros a Ia; destruct a; try reflexivity; destruct (J _ Ia)).
  assert (A2 : (forall i, ~ In (GPrio i) args) -> g_prio (meaning args) = None) by (intros J; apply pick_none; intros a Ia; destruct a; try reflexivity; destruct (J _ Ia)).
  assert (A3 : (forall i, ~ In (GShared i) args) -> g_shared (meaning args) = None) by (intros J; apply pick_none; intros a Ia; destruct a; try reflexivity; destruct (J _ Ia)).
  assert (A4 : (forall i, ~ In (GLocal i) args) -> g_local (meaning args) = None) by (intros J; apply pick_none; intros a Ia; destruct a; try reflexivity; destruct (J _ Ia)).
  set (g := meaning args) in *.
  assert (P : (match g_binds g with Some i => forall j, In (GBinds j) args -> j = i | None => forall j, ~ In (GBinds j) args end)).
  { destruct (g_binds g) eqn:E; [intros j J; apply F1 in J; congruence|intros j J; apply F1 in J; congruence]. }
  destruct (g_binds g) as [i|] eqn:Eb.
  - exists (KHard i), (match g_prio g with Some p => p | None => 1 end), (opt_list (g_shared g)), (opt_list (option_map strip (g_local g))). split; [exact (@S_hard items n (raw_of g ins) i I0 Eb)|].
    split; [intros j J; now rewrite (P j J)|]. split; [intros J; specialize (A1 J); discriminate|]. split; [intros v J; now rewrite (F2 v J)|]. split; [intros J; now rewrite (A2 J)|].
    split; [intros x J; now rewrite (F3 x J)|]. split; [intros J; now rewrite (A3 J)|]. split; [intros x J; now rewrite (F4 x J)|intros J; now rewrite (A4 J)].
  - exists KSoft, (match g_prio g with Some p => p | None => 0 end), (opt_list (g_shared g)), (opt_list (option_map strip (g_local g))). split; [exact (@S_soft items n (raw_of g ins) I0 Eb)|].
    split; [intros j J; destruct (P j J)|]. split; [reflexivity|]. split; [intros v J; now rewrite (F2 v J)|]. split; [intros J; now rewrite (A2 J)|].
    split; [intros x J; now rewrite (F3 x J)|]. split; [intros J; now rewrite (A3 J)|]. split; [intros x J; now rewrite (F4 x J)|intros J; now rewrite (A4 J)].
Qed.
(** Every task written is a task of the application the other theorems speak about, and is what its arguments say. *)
Theorem C78_written_task b disp l x n toks ins args : expand_tokens b disp l = Some x -> In (XTask n (MList toks) ins) l -> args_toks true toks args ->
  exists items, read_items l = Some items /\ expand b disp items = Some x /\ exists k p sh lo, src_task items n k p sh lo /\ says args k p sh lo.
Proof.
  unfold expand_tokens. destruct (read_items l) as [items|] eqn:R; [|discriminate]. intros E I0 H. exists items. split; [reflexivity|]. split; [exact E|].
  destruct (read_in _ _ R I0) as (i & Ri & Ii). cbn [read_item meta_toks] in Ri. destruct (parse_task toks) as [g|] eqn:P; [|discriminate]. injection Ri as <-.
  apply parse_task_iff in P as (args' & H' & N & ->). rewrite (args_det H H'). now apply (@meaning_says args' n ins items).
Qed.
(** The same for [#[idle(..)]] ([shared], [local]) and [#[init(..)]] ([local]); without arguments there are no resources. *)
Definition says_idle (args : list arg) (sh : list (ident * access)) (lo : list (ident * tlocal)) : Prop :=
  (forall x, In (GShared x) args -> sh = x) /\ ((forall x, ~ In (GShared x) args) -> sh = []) /\
  (forall x, In (GLocal x) args -> lo = map fst x) /\ ((forall x, ~ In (GLocal x) args) -> lo = []).
Lemma meaning_idle args : NoDup (map name_of args) -> says_idle args (opt_list (g_shared (meaning args))) (opt_list (option_map strip (g_local (meaning args)))).
Proof.
  intros N. split; [|split; [|split]].
  - intros x J. unfold meaning. cbn [g_shared]. rewrite (@pick_some _ (fun a => match a with GShared x => Some x | _ => None end) args (GShared x) x N); auto. intros b y E; destruct b; try discriminate; reflexivity.
  - intros J. unfold meaning. cbn [g_shared]. rewrite pick_none; [reflexivity|]. intros a Ia; destruct a; try reflexivity; destruct (J _ Ia).
  - intros x J. unfold meaning. cbn [g_local]. rewrite (@pick_some _ (fun a => match a with GLocal x => Some x | _ => None end) args (GLocal x) x N); auto. intros b y E; destruct b; try discriminate; reflexivity.
  - intros J. unfold meaning. cbn [g_local]. rewrite pick_none; [reflexivity|]. intros a Ia; destruct a; try reflexivity; destruct (J _ Ia).
Qed.
Theorem C78_written_idle b disp l x n toks args : expand_tokens b disp l = Some x -> In (XIdle n (MList toks)) l -> args_toks false toks args \/ (toks = [] /\ args = []) ->
  exists items, read_items l = Some items /\ expand b disp items = Some x /\ exists sh lo, src_task items n KIdle 0 sh lo /\ says_idle args sh lo.
Proof.
  unfold expand_tokens. destruct (read_items l) as [items|] eqn:R; [|discriminate]. intros E I0 H. exists items. split; [reflexivity|]. split; [exact E|].
  destruct (read_in _ _ R I0) as (i & Ri & Ii). cbn [read_item meta_toks] in Ri. destruct (parse_idle false toks) as [g|] eqn:P; [|discriminate]. injection Ri as <-.
  do 2 eexists. split; [eapply S_idle; exact Ii|]. apply parse_idle_iff in P as [[-> ->]|(args' & H' & N & _ & ->)].
  - destruct H as [H|[_ ->]]; [|repeat split; intros ? []]. exfalso. remember [] as L. destruct H as [T|t a H|t a l' r H _]; [discriminate|exfalso; now apply (arg_len H)|destruct t; discriminate].
  - assert (args = args') as <-; [|now apply meaning_idle]. destruct H as [H|[-> ->]]; [exact (args_det H H')|]. exfalso. remember [] as L. destruct H' as [T|t a H|t a l' r H _]; [discriminate|exfalso; now apply (arg_len H)|destruct t; discriminate].
Qed.
Theorem C78_written_init b disp l x n toks sn ln args : expand_tokens b disp l = Some x -> In (XInit n (MList toks) sn ln) l -> args_toks false toks args \/ (toks = [] /\ args = []) ->
  exists items, read_items l = Some items /\ expand b disp items = Some x /\ exists lo, In (IInit n lo sn ln) items /\ says_idle args [] (opt_list lo).
Proof.
  unfold expand_tokens. destruct (read_items l) as [items|] eqn:R; [|discriminate]. intros E I0 H. exists items. split; [reflexivity|]. split; [exact E|].
  destruct (read_in _ _ R I0) as (i & Ri & Ii). cbn [read_item meta_toks] in Ri. destruct (parse_idle true toks) as [g|] eqn:P; [|discriminate]. injection Ri as <-.
  eexists. split; [exact Ii|]. apply C78_init_arguments in P as [[-> ->]|(args' & H' & N & L & ->)].
  - destruct H as [H|[_ ->]]; [|repeat split; intros ? []]. exfalso. remember [] as L. destruct H as [T|t a H|t a l' r H _]; [discriminate|exfalso; now apply (arg_len H)|destruct t; discriminate].
  - assert (args = args') as <-. { destruct H as [H|[-> ->]]; [exact (args_det H H')|]. exfalso. remember [] as L'. destruct H' as [T|t a H|t a l' r H _]; [discriminate|exfalso; now apply (arg_len H)|destruct t; discriminate]. }
    destruct (@meaning_idle args N) as (_ & _ & A & B). split; [intros y J; destruct (L _ J) as [z Q]; discriminate|]. split; [reflexivity|]. split; assumption.
Qed.
Print Assumptions C78_written_idle. Print Assumptions C78_written_init.
(** [local_task] on a software task. *)
Theorem C78_local_task_counts l g args ins t : parse_task l = Some g -> args_toks true l args -> task_args (raw_of g ins) = Some (inr t) ->
  sw_inputs t = ins /\ (forall b, In (GLocalTask b) args -> sw_local_task t = b) /\ ((forall b, ~ In (GLocalTask b) args) -> sw_local_task t = false).
Proof.
  intros P H E. apply parse_task_iff in P as (args' & H' & N & ->). rewrite <- (args_det H H') in *. clear args' H' H.
  unfold task_args in E. destruct (match rt_prio _ with Some p => 255 <? p | None => false end); [discriminate|]. destruct (mk_args _ _) as [a|]; [|discriminate].
  destruct (rt_binds (raw_of (meaning args) ins)) as [i|]; [destruct (_ =? 0); discriminate|]. injection E as <-. cbn [sw_inputs sw_local_task raw_of rt_inputs rt_local_task]. split; [reflexivity|]. split.
  - intros b I0. unfold meaning. cbn [g_local_task]. rewrite (@pick_some _ (fun a => match a with GLocalTask b => Some b | _ => None end) args (GLocalTask b) b N); auto. intros c y E. destruct c; try discriminate. reflexivity.
  - intros A. unfold meaning. cbn [g_local_task]. rewrite pick_none; [reflexivity|]. intros c Ic. destruct c; try reflexivity. destruct (A _ Ic).
Qed.
Print Assumptions C78_local_task_counts.
Print Assumptions C78_task_arguments.
Print Assumptions C78_unambiguous.
Print Assumptions C78_twice_refused.
Print Assumptions C78_idle_arguments.
Print Assumptions C78_init_arguments.
Print Assumptions C78_order_irrelevant.
Print Assumptions C78_order_application.
Print Assumptions C78_written_task.

(** * Cases *)
(** [#[task(priority = 2, binds = UART0, shared = [cnt, &cfg], local = [buf, n: u8 = 0])]] *)
Definition ex_toks : list tok :=
  [TId "priority"; TEq; TInt 2 false; TComma; TId "binds"; TEq; TId "UART0"; TComma; TId "shared"; TEq; TGroup [TId "cnt"; TComma; TAmp; TId "cfg"]; TComma;
   TId "local"; TEq; TGroup [TId "buf"; TComma; TId "n"; TColon; TTy true; TEq; TExpr]].
Definition ex_args : list arg := [GPrio 2; GBinds "UART0"; GShared [("cnt", Exclusive); ("cfg", SharedRef)]; GLocal [("buf", External, []); ("n", Declared, [])]].
Lemma ex_written : args_toks true ex_toks ex_args.
Proof.
  apply (@AA_cons true [TId "priority"; TEq; TInt 2 false]); [constructor; lia|]. apply (@AA_cons true [TId "binds"; TEq; TId "UART0"]); [constructor|].
  apply (@AA_cons true [TId "shared"; TEq; TGroup [TId "cnt"; TComma; TAmp; TId "cfg"]]).
  - constructor. apply (@SL_cons [TId "cnt"]); [exact (SE_name [] "cnt")|]. apply SL_last. exact (SE_ref [] [] "cfg").
  - apply AA_last. constructor. apply (@LL_field [] "buf"); [intros []|]. exact (@LL_declared [] "n" false [] [] LL_nil).
Qed.
Definition ex_titems (toks : list tok) : list titem :=
  [XShared "Shared" [("cnt", mkSR 1 false); ("cfg", mkSR 2 false)]; XLocal "Local" [("buf", 3)]; XInit "init" MPath "Shared" "Local"; XTask "uart" (MList toks) []].
Example C78_case : args_toks true ex_toks ex_args /\ NoDup (map name_of ex_args) /\ (exists x, expand_tokens (Cortex 3) [] (ex_titems ex_toks) = Some x) /\
  exists items, read_items (ex_titems ex_toks) = Some items /\ src_task items "uart" (KHard "UART0") 2 [("cnt", Exclusive); ("cfg", SharedRef)] [("buf", External); ("n", Declared)].
Proof.
  split; [exact ex_written|]. split; [repeat constructor; simpl; intuition discriminate|]. split; [eexists; vm_compute; reflexivity|]. eexists. split; [vm_compute; reflexivity|].
  refine (@S_hard _ "uart" (mkRaw (Some "UART0") (Some 2) (Some [("cnt", Exclusive); ("cfg", SharedRef)]) (Some [("buf", External); ("n", Declared)]) None []) "UART0" _ _); [do 3 right; left; reflexivity|reflexivity].
Qed.
(** [#[idle(shared = [cnt], local = [#[doc] n: u8 = 0])]] and [#[init(local = [buf: u8 = 0])]] *)
Definition ex_idle : list tok := [TId "shared"; TEq; TGroup [TId "cnt"]; TComma; TId "local"; TEq; TGroup [TAttr ADoc; TAttr ACfg; TId "n"; TColon; TTy true; TEq; TExpr]].
Definition ex_init : list tok := [TId "local"; TEq; TGroup [TId "q"; TColon; TTy true; TEq; TExpr]].
Example C78_case_idle : args_toks false ex_idle [GShared [("cnt", Exclusive)]; GLocal [("n", Declared, [ACfg])]] /\ args_toks false ex_init [GLocal [("q", Declared, [])]] /\
  exists x, expand_tokens (Cortex 3) [] [XShared "Shared" [("cnt", mkSR 1 false)]; XLocal "Local" []; XInit "init" (MList ex_init) "Shared" "Local"; XIdle "idle" (MList ex_idle)] = Some x.
Proof.
  split; [|split].
  - apply (@AA_cons false [TId "shared"; TEq; TGroup [TId "cnt"]]); [constructor; apply SL_last; exact (SE_name [] "cnt")|]. apply AA_last. constructor. exact (@LL_declared [ADoc; ACfg] "n" false [] [] LL_nil).
  - apply AA_last. constructor. exact (@LL_declared [] "q" false [] [] LL_nil).
  - eexists. vm_compute. reflexivity.
Qed.
Example C78_case_order : args_toks true [TId "local_task"; TComma; TId "priority"; TEq; TInt 1 false; TComma] [GLocalTask true; GPrio 1] /\ parse_task [TId "priority"; TEq; TInt 1 false; TComma; TId "local_task"; TEq; TBool true] = parse_task [TId "local_task"; TComma; TId "priority"; TEq; TInt 1 false; TComma].
Proof.
  split; [|reflexivity]. apply (@AA_cons true [TId "local_task"]); [constructor|]. apply (@AA_cons true [TId "priority"; TEq; TInt 1 false]); [constructor; lia|]. now constructor.
Qed.

(** * What is written but does not count *)
(** [local_task] on a task bound to an interrupt. *)
Theorem C78_local_task_refuted : (forall args b ins, (exists i, In (GBinds i) args) -> NoDup (map name_of args) -> task_args (raw_of (meaning (GLocalTask b :: args)) ins) = task_args (raw_of (meaning args) ins)) /\
  exists l l', args_toks true l [GBinds "UART0"] /\ args_toks true l' [GLocalTask true; GBinds "UART0"] /\
    expand_tokens (Cortex 3) [] (ex_titems l) = expand_tokens (Cortex 3) [] (ex_titems l') /\ expand_tokens (Cortex 3) [] (ex_titems l) <> None.
Proof.
  split.
  - intros args b ins (i & I0) N. unfold task_args, raw_of, meaning. cbn [rt_binds rt_prio rt_shared rt_local rt_local_task rt_inputs pick g_binds g_prio g_shared g_local g_local_task].
    rewrite (@pick_some _ (fun a => match a with GBinds i => Some i | _ => None end) args (GBinds i) i N); [reflexivity| |exact I0|reflexivity]. intros a y E. destruct a; try discriminate. reflexivity.
  - exists [TId "binds"; TEq; TId "UART0"], [TId "local_task"; TComma; TId "binds"; TEq; TId "UART0"]. split; [apply AA_last; constructor|]. split; [apply (@AA_cons true [TId "local_task"]); [constructor|apply AA_last; constructor]|].
    split; [vm_compute; reflexivity|]. vm_compute. discriminate.
Qed.
(** Attributes, [cfg] among them, in front of a shared resource, or of a local resource that is a field of the struct. *)
Theorem C78_attributes_dropped_refuted :
  (forall at_ s l r, shared_list (map TAttr at_ ++ TId s :: TComma :: l) r <-> shared_list (TId s :: TComma :: l) r) /\
  parse_task [TId "local"; TEq; TGroup [TAttr ACfg; TId "a"; TComma; TId "b"]] = parse_task [TId "local"; TEq; TGroup [TId "a"; TComma; TId "b"]] /\
  expand_tokens (Cortex 3) [] (ex_titems [TId "binds"; TEq; TId "UART0"; TComma; TId "shared"; TEq; TGroup [TAttr ACfg; TId "cnt"]]) =
  expand_tokens (Cortex 3) [] (ex_titems [TId "binds"; TEq; TId "UART0"; TComma; TId "shared"; TEq; TGroup [TId "cnt"]]).
Proof.
  split; [|split; [reflexivity|vm_compute; reflexivity]]. intros at_ s l r. rewrite <- !(shared_iff _ _ (Nat.lt_succ_diag_r _)).
  assert (E : elem (map TAttr at_ ++ TId s :: TComma :: l) = Some (s, Exclusive, TComma :: l)) by (change (TId s :: TComma :: l) with ([TId s] ++ TComma :: l); rewrite app_assoc; exact (@elem_total _ _ _ (TComma :: l) (SE_name at_ s) I)).
  set (f1 := S (List.length (map TAttr at_ ++ TId s :: TComma :: l))). set (f2 := S (List.length (TId s :: TComma :: l))).
  assert (X : forall f t, elem t = Some (s, Exclusive, TComma :: l) -> rd_shared (S f) t = match rd_shared f l with Some r => Some ((s, Exclusive) :: r) | None => None end).
  { intros f t Et. destruct t as [|t0 t]; [discriminate|]. change (match elem (t0 :: t) with None => None | Some (s, a, l3) => match l3 with [] => Some [(s, a)] | TComma :: l4 => match rd_shared f l4 with Some r => Some ((s, a) :: r) | None => None end | _ => None end end = match rd_shared f l with Some r => Some ((s, Exclusive) :: r) | None => None end). now rewrite Et. }
  unfold f1, f2. rewrite !(X _ _ E), (X _ (TId s :: TComma :: l) eq_refl).
  assert (Q : forall f r, List.length l < f -> rd_shared f l = Some r <-> shared_list l r) by (intros; now apply shared_iff).
  assert (L1 : List.length l < List.length (map TAttr at_ ++ TId s :: TComma :: l)) by (rewrite app_length; simpl; lia). assert (L2 : List.length l < List.length (TId s :: TComma :: l)) by (simpl; lia).
  pose proof (fun r => Q _ r L1) as Q1. pose proof (fun r => Q _ r L2) as Q2.
  destruct (rd_shared (List.length (map TAttr at_ ++ TId s :: TComma :: l)) l) as [r1|], (rd_shared (List.length (TId s :: TComma :: l)) l) as [r2|]; try reflexivity.
  - pose proof (proj1 (Q1 r1) eq_refl) as H. apply Q2 in H. now injection H as ->.
  - pose proof (proj1 (Q1 r1) eq_refl) as H. apply Q2 in H. discriminate.
  - pose proof (proj1 (Q2 r2) eq_refl) as H. apply Q1 in H. discriminate.
Qed.
(** An attribute that is neither [cfg] nor documentation is refused in front of such a local resource, but accepted (and dropped) in
    front of the last one if no comma follows. *)
Theorem C78_attribute_before_last_refuted :
  parse_task [TId "local"; TEq; TGroup [TAttr AOther; TId "a"; TComma]] = None /\
  parse_task [TId "local"; TEq; TGroup [TAttr AOther; TId "a"]] = parse_task [TId "local"; TEq; TGroup [TId "a"]] /\ parse_task [TId "local"; TEq; TGroup [TId "a"]] <> None.
Proof. split; [reflexivity|]. split; [reflexivity|discriminate]. Qed.
(** [#[task = ..]], [#[idle = ..]], [#[init = ..]]: the value is ignored. *)
Theorem C78_value_ignored_refuted : forall n ins sn ln, read_item (XTask n MValue ins) = read_item (XTask n MPath ins) /\ read_item (XIdle n MValue) = read_item (XIdle n MPath) /\
  read_item (XInit n MValue sn ln) = read_item (XInit n MPath sn ln) /\ read_item (XTask n MValue ins) <> None.
Proof. intros. repeat split. discriminate. Qed.
(** A comma after the last argument: accepted in [#[task(..)]], refused in [#[idle(..)]] and [#[init(..)]]. *)
Theorem C78_trailing_comma_refuted : forall init, parse_idle init [TId "local"; TEq; TGroup [TId "a"]; TComma] = None /\
  parse_idle init [TId "local"; TEq; TGroup [TId "a"]] <> None /\ parse_task [TId "local"; TEq; TGroup [TId "a"]; TComma] <> None.
Proof. intros []; (split; [reflexivity|]; split; discriminate). Qed.
Print Assumptions C78_local_task_refuted.
Print Assumptions C78_attributes_dropped_refuted.
Print Assumptions C78_attribute_before_last_refuted.
Print Assumptions C78_value_ignored_refuted.
Print Assumptions C78_trailing_comma_refuted.
