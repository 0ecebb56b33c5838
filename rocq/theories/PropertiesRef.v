(** C79: the signatures of init, idle and tasks; C80: references do not outlive what they refer to. *)
From Verif Require Import Base LTS AppModel AppSpec AppProofs AppAnalysis AppFinal SigModel SigSpec SigProofs RefModel RefSpec RefProofs PropertiesApp.
Set Implicit Arguments.
Open Scope string_scope. Open Scope list_scope. Open Scope nat_scope.

(** * C79 *)
(** The macro accepts a function exactly if it has the signature the documentation asks for, and takes from it what is
    written: the further arguments, whether it returns, the names of the resource structs. *)
Theorem C79_init foreign n s p : fn_parse FInit foreign n s = Some p <-> exists sh lo, init_signature n s sh lo /\ p = mkFp [] false (Some (sh, lo)).
Proof. apply init_iff. Qed.
Theorem C79_idle foreign n s p : fn_parse FIdle foreign n s = Some p <-> idle_signature n s /\ p = mkFp [] true None.
Proof. apply idle_iff. Qed.
Theorem C79_hardware_task foreign n s p : fn_parse FHard foreign n s = Some p <-> hard_signature n s /\ p = mkFp [] false None.
Proof. apply hard_iff. Qed.
Theorem C79_software_task foreign n s p : fn_parse FSoft foreign n s = Some p <-> exists inputs diverges, soft_signature foreign n s inputs diverges /\ p = mkFp inputs diverges None.
Proof. apply soft_iff. Qed.
(** Whatever the kind: no function is accepted for another task's context, and none that is public, const, unsafe, generic,
    variadic or has an ABI. *)
Theorem C79_own_context k foreign n n' s p p' : fn_parse k foreign n s = Some p -> fn_parse k foreign n' s = Some p' -> n = n'.
Proof.
  assert (X : forall k f n s p, fn_parse k f n s = Some p -> exists t l, fs_inputs s = FTyped t :: l /\ context_ty n t).
  { intros k0 f m s0 p0 H. destruct k0.
    - apply C79_init in H as (sh & lo & (t & a & b & C & _ & _ & ->) & _). cbn. eauto.
    - apply C79_idle in H as ((t & C & ->) & _). cbn. eauto.
    - apply C79_hardware_task in H as ((t & out & C & _ & ->) & _). cbn. eauto.
    - apply C79_software_task in H as (ins & d & (t & out & -> & _ & C) & _). cbn. exists t, (map FTyped ins). split; [reflexivity|]. destruct (f && negb d); [|assumption]. destruct C as (lead & a & b & -> & _). now exists lead, a, b. }
  intros H H'. destruct (X _ _ _ _ _ H) as (t & l & E & (ld & a & b & ->)). destruct (X _ _ _ _ _ H') as (t' & l' & E' & (ld' & a' & b' & ->)). rewrite E in E'. injection E' as _ -> _ _ _. reflexivity.
Qed.
Theorem C79_nothing_else k foreign n s p : fn_parse k foreign n s = Some p ->
  fs_private s = true /\ fs_const s = false /\ fs_abi s = false /\ fs_unsafe s = false /\ fs_generics s = false /\ fs_where s = false /\ fs_variadic s = false /\
  fs_async s = match k with FSoft => true | _ => false end.
Proof.
  intros H. destruct k.
  - apply C79_init in H as (sh & lo & (t & a & b & C & _ & _ & ->) & _). cbn. auto 10.
  - apply C79_idle in H as ((t & C & ->) & _). cbn. auto 10.
  - apply C79_hardware_task in H as ((t & out & C & _ & ->) & _). cbn. auto 10.
  - apply C79_software_task in H as (ins & d & (t & out & -> & _ & C) & _). cbn. auto 10.
Qed.

(** * C80 *)
Section Refs.
Context (b : bkind) (disp : list ident) (items : list item) (x : expansion) (Hx : expand b disp items = Some x).
Context (fns : ident -> pfn) (Hb : builds (x_app x) fns).
Notation reached s := (reach (rstep (x_app x) fns) rs0 s).

(** In an application that the macro and the compiler accept there are never two exclusive references to the same local
    or lock-free resource, whatever the functions do with those they are given. *)
Theorem C80_never_aliased s : reached s -> ~ aliased s.
Proof.
  intros R (i & j & f & g & N & F & G & E). pose proof (v_nodup (@reach_rinv _ _ _ _ Hx fns Hb s R)) as D. apply N. apply (proj1 (NoDup_nth_error _) D).
  - rewrite map_length. apply nth_error_Some. congruence.
  - rewrite (map_nth_error rf_place i (r_refs s) F), (map_nth_error rf_place j (r_refs s) G). now rewrite E.
Qed.
(** A reference is there only during the run it was made for, except those of init and idle, which run once. *)
Theorem C80_ends_with_run s f : reached s -> In f (r_refs s) ->
  in_progress s (rf_run f) \/ exists k p ar, ctx_of (x_app x) (rf_task f) = Some (k, p, ar) /\ (k = FInit \/ k = FIdle).
Proof.
  intros R F. destruct (v_ref (@reach_rinv _ _ _ _ Hx fns Hb s R) f F) as (_ & k & p & ar & C & _ & _ & [(u & U & E & _)|[_ O]]); [left; exists u; auto|]. right. exists k, p, ar. split; [assumption|]. destruct k; auto; discriminate.
Qed.
(** No function is entered, and no task spawned, while a run of it is in progress. *)
Theorem C80_one_run_each s u v : reached s -> In u (r_runs s) -> In v (r_runs s) -> ru_task u = ru_task v -> u = v.
Proof. intros R U V E. pose proof (v_task (@reach_rinv _ _ _ _ Hx fns Hb s R)) as D. exact (@NoDup_map_inj _ _ ru_task (r_runs s) u v D U V E). Qed.

(** The arguments of a task: only a returning task declared in an [extern] block with an argument type that mentions a
    lifetime other than ['static] can hold a reference to a variable that is gone. *)
Theorem C80_arguments_partial s : reached s -> dangling s -> exists u, In u (r_runs s) /\ pf_extern (fns (ru_task u)) = true /\ declared_bottom (fns (ru_task u)) = false /\
  exists t, argument (fns (ru_task u)) t /\ borrows t.
Proof.
  intros R (h & l & L & (u & U & E) & _). destruct (@reach_linv _ fns s R) as (_ & B & _). destruct (B h l L) as [_ B']. destruct (B' u U E) as [B1 B2]. exists u. split; [assumption|]. unfold erases in B1. apply andb_true_iff in B1 as [B1 B3]. apply negb_true_iff in B3. split; [assumption|]. split; [assumption|].
  now apply static_inputs_false.
Qed.
(** The arguments of every other software task of an application that compiles borrow nothing. *)
Theorem C80_no_borrowed_arguments n p ar t : ctx_of (x_app x) n = Some (FSoft, p, ar) -> pf_extern (fns n) = false \/ declared_bottom (fns n) = true ->
  argument (fns n) t -> ~ borrows t.
Proof.
  intros C D (c & ins & E & I) Bt. destruct (Hb _ C) as [_ K]. unfold rustc_ok in K. apply andb_true_iff in K as [_ K]. apply andb_true_iff in K as [_ K].
  assert (Er : erases (fns n) = false) by (unfold erases; destruct D as [-> | ->]; [reflexivity|]; destruct (pf_extern (fns n)); reflexivity).
  rewrite Er in K. cbn [orb] in K. unfold static_inputs, inputs_of in K. rewrite E in K. cbn [tl] in K. rewrite (proj2 (all_typed_some _ _) eq_refl) in K.
  rewrite forallb_forall in K. specialize (K t I). rewrite (borrows_not_static Bt) in K. discriminate.
Qed.
(** The CriticalSection that init is given cannot be used after interrupts are enabled, unless init is declared in an
    [extern] block and wants a ['static] context. *)
Theorem C80_token_partial s : reached s -> token_loose s -> pf_extern (fns (fst (ap_init (x_app x)))) = true /\ pf_static (fns (fst (ap_init (x_app x)))) = true.
Proof. intros R [_ T]. destruct (@reach_linv _ fns s R) as (_ & _ & C). specialize (C T). unfold wants_static in C. destruct (pf_extern _); [auto|discriminate]. Qed.
(** When the values returned by init are stored, a reference to such a resource exists only if init has spawned a
    software task that uses it. *)
Theorem C80_stored_under_partial s : reached s -> stored_under s -> exists u r, In u (r_runs s) /\ ru_kind u = FSoft /\ exists p, uses_local items (ru_task u) p r.
Proof.
  intros R (P & f & r & F & Q). pose proof (@reach_rinv _ _ _ _ Hx fns Hb s R) as I. destruct (v_ref I f F) as (_ & k & p & ar & C & QF & _ & RR).
  assert (S0 : forall s, reached s -> r_phase s <> Started -> forall u, In u (r_runs s) -> ru_kind u = FInit \/ ru_kind u = FSoft).
  { clear. intros s R. refine (@reach_inv _ _ (rstep (x_app x) fns) (fun s => r_phase s <> Started -> forall u, In u (r_runs s) -> ru_kind u = FInit \/ ru_kind u = FSoft) _ _ _ s R).
    - intros _ u [].
    - clear. intros s l s' IH H PS u U. destruct l as [| | |t|i|t lend|i|i q|]; cbn [rstep] in H.
      + destruct (r_phase s) eqn:P; try discriminate. destruct (ctx_of _ _) as [[[[| | |] p] ar]|]; try discriminate. injection H as <-. destruct U as [<-|U]; [now left|]. apply IH; [discriminate|exact U].
      + destruct (r_phase s); try discriminate. destruct (find _ _); [|discriminate]. injection H as <-. now destruct PS.
      + destruct (r_phase s); try discriminate. destruct (r_idle s); try discriminate. destruct (ap_idle _) as [[n ar]|]; [|discriminate]. injection H as <-. now destruct PS.
      + destruct (r_phase s) eqn:P; try discriminate. destruct (ctx_of _ _) as [[[[| | |] p] ar]|]; try discriminate. destruct (forallb _ _); [|discriminate]. injection H as <-. cbn [begin r_phase] in PS. congruence.
      + destruct (find_run s i) as [v|]; [|discriminate]. destruct (is_hard _); [|discriminate]. injection H as <-. apply filter_In in U as [U _]. exact (IH PS u U).
      + assert (X : forall p ar, (if running s t then Some s else match lend with None => Some (begin (x_app x) s t FSoft p ar) | Some j =>
          if erases (fns t) && negb (static_inputs (fns t)) && (match find_run s j with Some _ => true | None => false end) then
          Some (mkRs (r_phase (begin (x_app x) s t FSoft p ar)) (r_idle (begin (x_app x) s t FSoft p ar)) (r_next (begin (x_app x) s t FSoft p ar)) (r_runs (begin (x_app x) s t FSoft p ar)) (r_refs (begin (x_app x) s t FSoft p ar)) ((r_next s, j) :: r_lent (begin (x_app x) s t FSoft p ar)) (r_token (begin (x_app x) s t FSoft p ar))) else None end) = Some s' -> ru_kind u = FInit \/ ru_kind u = FSoft).
        { intros p ar E. destruct (running s t); [injection E as <-; exact (IH PS u U)|]. destruct lend as [j|]; [destruct (_ && _); [|discriminate]|]; injection E as <-; destruct U as [<-|U]; try (now right); exact (IH PS u U). }
        destruct (r_phase s); try discriminate; destruct (ctx_of _ _) as [[[[| | |] p] ar]|]; try discriminate; exact (X p ar H).
      + destruct (find_run s i) as [v|]; [|discriminate]. destruct (ru_kind v); try discriminate. destruct (never_ready _); [discriminate|]. injection H as <-. apply filter_In in U as [U _]. exact (IH PS u U).
      + destruct (find_run s i) as [v|]; [|discriminate]. destruct (field_static _ _); [|discriminate]. injection H as <-. exact (IH PS u U).
      + destruct (r_phase s) eqn:P; try discriminate. destruct (wants_static _ _); [|discriminate]. injection H as <-. apply IH; [congruence|exact U]. }
  pose proof (@wf_x _ _ _ _ Hx) as W.
  assert (NI : k <> FInit). { intros ->. apply ctx_init in C as (_ & _ & ->). unfold ctx_places in QF. cbn in QF. rewrite app_nil_r in QF. unfold local_places in QF. apply in_map_iff in QF as ([r' t] & E & I'). apply (wf_init W) in I'. cbn in I'. subst t. cbn in E. destruct Q as [Q|Q]; congruence. }
  assert (K : k = FSoft /\ exists u, In u (r_runs s) /\ ru_task u = rf_task f).
  { destruct RR as [(u & U & _ & E)|[_ O]].
    - split; [|eauto]. destruct (v_ctx I u U) as [ar' C']. rewrite E, C in C'. injection C' as -> _ _. destruct (S0 s R ltac:(congruence) u U) as [D|D]; [now destruct NI|assumption].
    - destruct (v_init I (t := rf_task f)) as [_ D]; [right; eauto|]. destruct k; try discriminate; [now destruct NI|]. specialize (D _ _ C). apply (v_idle I) in D. congruence. }
  destruct K as (-> & u & U & E). exists u, r. split; [assumption|]. destruct (v_ctx I u U) as [ar' C']. rewrite E, C in C'. injection C' as KU _ _. split; [now rewrite <- KU|]. exists p. rewrite E.
  assert (T := @ctx_task x _ _ _ _ C NI). destruct ar as [sh lo]. apply (@is_task_x _ _ _ _ Hx) in T. unfold uses_local. exists KSoft, sh, lo. split; [exact T|].
  unfold ctx_places in QF. apply in_app_iff in QF as [QF|QF]; cbn [a_local a_shared] in QF.
  - unfold local_places in QF. apply in_map_iff in QF as ([r' [|]] & E' & I'); cbn in E'; destruct Q as [Q|Q]; congruence.
  - exfalso. unfold shared_places in QF. apply in_map_iff in QF as ([r' ac] & E' & I'). apply filter_In in I' as [I' L]. cbn [fst snd] in L. apply andb_true_iff in L as [_ L]. unfold lock_free in L. destruct (iget (ap_shared (x_app x)) r') as [sr|] eqn:G; [|discriminate]. apply iget_in in G.
    destruct (@expand_accepted _ _ _ _ Hx) as [a0 A]. rewrite (acc_shared A) in G. apply (pd_shared (ac_parsed A)) in G. destruct (lock_free_ok A G L) as [LS _]. exact (LS _ _ _ _ _ _ T I' eq_refl).
Qed.
End Refs.

(** Examples.  [inline n out ins]: the function written in the module. *)
Definition ctx (n : ident) (a : pargs) : fnarg := FTyped (TyPath false false [mkSeg n PNone; mkSeg "Context" a]).
Definition structs : rret := RType (TyTuple [TyPath false false [mkSeg "Shared" PNone]; TyPath false false [mkSeg "Local" PNone]]).
Definition ex_fns (n : ident) : pfn :=
  if ieq n "init" then mkPf false (plain_fn false [ctx n PNone] structs) false false
  else if ieq n "idle" then mkPf true (plain_fn false [ctx n PNone] (RType TyNever)) true true
  else if ieq n "work" then mkPf false (plain_fn true [ctx n PNone] (RType TyNever)) false false
  else if ieq n "log" then mkPf true (plain_fn true [ctx n (PAngle [GLt "_"]); FTyped (TyOther 5)] RDefault) false false
  else mkPf true (plain_fn false [ctx n PNone] RDefault) false false.
Lemma ex_builds : builds (x_app ex_x) ex_fns.
Proof. apply builds_b_ok. vm_compute. reflexivity. Qed.

Lemma ref_check a fns l (P : rst -> bool) : (match run (rstep a fns) rs0 l with Some s => P s | None => false end) = true -> exists s, reach (rstep a fns) rs0 s /\ P s = true.
Proof. destruct (run (rstep a fns) rs0 l) as [s|] eqn:E; [|discriminate]. intros H. exists s. split; [now exists l|assumption]. Qed.

(** [uart] runs for the second time, [work] is in progress and has stored its reference away, idle runs. *)
Example C80_case : expand (Cortex 3) ex_disp ex_items = Some ex_x /\ builds (x_app ex_x) ex_fns /\
  exists s, reach (rstep (x_app ex_x) ex_fns) rs0 s /\ (map rf_place (r_refs s) = [PLocal "buf"; PShared "raw"; PDecl "work" "state"] /\ map rf_kept (r_refs s) = [false; false; true] /\ map ru_task (r_runs s) = ["uart"; "idle"; "work"]).
Proof.
  split; [exact ex_accepted|]. split; [exact ex_builds|]. eexists. split; [exists [LInit; LSpawn "work" None; LKeep 1 (PDecl "work" "state"); LInitEnd; LIdle; LEnter "uart"; LLeave 3; LEnter "spi"; LLeave 4; LEnter "uart"]; vm_compute; reflexivity|]. vm_compute. auto.
Qed.
(** Same-priority tasks that share a lock-free resource cannot be in progress together; the second would alias. *)
Example C80_lock_free_case : match run (rstep (x_app ex_x) ex_fns) rs0 [LInit; LInitEnd; LEnter "uart"; LEnter "spi"] with Some _ => False | None => True end.
Proof. vm_compute. exact I. Qed.
(** [tick], of higher priority, interrupts [uart] while a software task is suspended and idle runs: each has its own. *)
Definition pre_items : list item := base [] [("buf", 4); ("acc", 5)] ++ [hw "uart" "UART0" 1 [] (Some [("buf", External)]); hw "tick" "TIM1" 3 [] (Some [("acc", External); ("n", Declared)]); sw "work" 2 [] (Some [("n", Declared)]) []].
Definition pre_x : expansion := match expand (Cortex 3) ["CAN0"] pre_items with Some x => x | None => ex_x end.
Definition pre_fns (n : ident) : pfn := if ieq n "init" then ex_fns n else mkPf false (plain_fn (ieq n "work") [ctx n PNone] RDefault) false false.
Example C80_preempt_case : expand (Cortex 3) ["CAN0"] pre_items = Some pre_x /\ builds (x_app pre_x) pre_fns /\
  exists s, reach (rstep (x_app pre_x) pre_fns) rs0 s /\ map ru_task (r_runs s) = ["tick"; "uart"; "work"] /\ map rf_place (r_refs s) = [PLocal "acc"; PDecl "tick" "n"; PLocal "buf"; PDecl "work" "n"].
Proof.
  split; [vm_compute; reflexivity|]. split; [apply builds_b_ok; vm_compute; reflexivity|]. eexists. split; [exists [LInit; LSpawn "work" None; LInitEnd; LEnter "uart"; LEnter "tick"]; vm_compute; reflexivity|]. vm_compute. auto.
Qed.
(** A task declared to return [!] in an [extern] block but defined otherwise is refused; else it could keep its
    references and be spawned again. *)
Example C80_diverges_case : forall s, type_is_bottom (fs_output s) = true -> rustc_ok FSoft (mkPf true s true false) = false /\ never_ready (mkPf true s true false) = false.
Proof. intros s E. unfold rustc_ok, declared_bottom. cbn. unfold declared_bottom. cbn. rewrite E. auto. Qed.
(** What the compiler refuses: a hardware task, or a returning software task, that wants a ['static] context. *)
Example C80_refused_case : (forall s, rustc_ok FHard (mkPf true s true false) = false) /\
  fn_parse FSoft true "log" (plain_fn true [ctx "log" (PAngle [GLt "static"])] RDefault) = None /\
  rustc_ok FSoft (mkPf true (plain_fn true [ctx "log" PNone] RDefault) true false) = false /\
  rustc_ok FSoft (mkPf false (plain_fn true [ctx "log" PNone; FTyped (TyRef None)] RDefault) false false) = false.
Proof. repeat split; try (intros; vm_compute; reflexivity). Qed.

(** The same application with [log] taking [&mut T]: it is accepted, and a hardware task can spawn [log] with a reference
    to a variable on its own stack and return before [log] has ended. *)
Definition ref_fns (n : ident) : pfn :=
  if ieq n "log" then mkPf true (plain_fn true [ctx n (PAngle [GLt "_"]); FTyped (TyRef None)] RDefault) false false else ex_fns n.
Definition gone (s : rst) : bool := existsb (fun q => existsb (fun u => ru_id u =? fst q) (r_runs s) && negb (existsb (fun u => ru_id u =? snd q) (r_runs s))) (r_lent s).
Lemma gone_dangling s : gone s = true -> dangling s.
Proof.
  unfold gone. rewrite existsb_exists. intros ([h l] & I & E). apply andb_true_iff in E as [E1 E2]. apply existsb_exists in E1 as (u & U & Eu). apply Nat.eqb_eq in Eu. apply negb_true_iff in E2. exists h, l. split; [assumption|]. split; [now exists u|].
  intros (v & V & Ev). cbn [snd] in E2. assert (X : existsb (fun u => ru_id u =? l) (r_runs s) = true); [|congruence]. apply existsb_exists. exists v. split; [assumption|]. now apply Nat.eqb_eq.
Qed.
Theorem C80_arguments_refuted : exists b disp items x fns s, expand b disp items = Some x /\ builds (x_app x) fns /\ reach (rstep (x_app x) fns) rs0 s /\ dangling s.
Proof.
  destruct (@ref_check (x_app ex_x) ref_fns [LInit; LInitEnd; LEnter "uart"; LSpawn "log" (Some 1); LLeave 1] gone) as (s & R & G); [vm_compute; reflexivity|].
  exists (Cortex 3), ex_disp, ex_items, ex_x, ref_fns, s. split; [exact ex_accepted|]. split; [apply builds_b_ok; vm_compute; reflexivity|]. split; [assumption|now apply gone_dangling].
Qed.
(** With [init] declared in an [extern] block the function may want [init::Context<'static>] and keep the token. *)
Definition tok_fns (n : ident) : pfn := if ieq n "init" then mkPf true (plain_fn false [ctx n PNone] structs) true false else ex_fns n.
Theorem C80_token_refuted : exists b disp items x fns s, expand b disp items = Some x /\ builds (x_app x) fns /\ reach (rstep (x_app x) fns) rs0 s /\ token_loose s.
Proof.
  destruct (@ref_check (x_app ex_x) tok_fns [LInit; LKeepToken; LInitEnd] (fun s => r_token s && match r_phase s with Started => true | _ => false end)) as (s & R & G); [vm_compute; reflexivity|].
  exists (Cortex 3), ex_disp, ex_items, ex_x, tok_fns, s. split; [exact ex_accepted|]. split; [apply builds_b_ok; vm_compute; reflexivity|]. split; [assumption|]. apply andb_true_iff in G as [G1 G2]. split; [|assumption]. destruct (r_phase s); try discriminate. reflexivity.
Qed.
(** And it does: [log] now uses the field [buf] of the [#[local]] struct, and init spawns it. *)
Definition early_items : list item := base [] [("buf", 4)] ++ [sw "log" 3 [] (Some [("buf", External)]) []].
Definition early_x : expansion := match expand (Cortex 3) ["CAN0"] early_items with Some x => x | None => ex_x end.
Definition early_fns (n : ident) : pfn := if ieq n "init" then ex_fns n else mkPf false (plain_fn true [ctx n PNone] RDefault) false false.
Theorem C80_stored_under_refuted : exists b disp items x fns s, expand b disp items = Some x /\ builds (x_app x) fns /\ (forall n, pf_extern (fns n) = false) /\ reach (rstep (x_app x) fns) rs0 s /\ stored_under s.
Proof.
  exists (Cortex 3), ["CAN0"], early_items, early_x, early_fns. eexists. split; [vm_compute; reflexivity|]. split; [apply builds_b_ok; vm_compute; reflexivity|]. split; [intros n; unfold early_fns; destruct (ieq n "init") eqn:E; [unfold ex_fns; now rewrite E|reflexivity]|].
  split; [exists [LInit; LSpawn "log" None]; vm_compute; reflexivity|]. split; [reflexivity|]. exists (mkRef 1 "log" (PLocal "buf") false), "buf". split; [now left|now left].
Qed.
Example C79_case : fn_parse FSoft true "log" (pf_sig (ex_fns "log")) = Some (mkFp [TyOther 5] false None) /\ fn_parse FInit false "init" (pf_sig (ex_fns "init")) = Some (mkFp [] false (Some ("Shared", "Local"))) /\
  fn_parse FHard false "uart" (plain_fn false [ctx "spi" PNone] RDefault) = None /\ fn_parse FHard false "uart" (plain_fn true [ctx "uart" PNone] RDefault) = None /\ fn_parse FIdle false "idle" (plain_fn false [ctx "idle" PNone] RDefault) = None.
Proof. vm_compute. auto 10. Qed.
