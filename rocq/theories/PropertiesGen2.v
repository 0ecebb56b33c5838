(** C82, continued: what the pieces of the generated program are made of. *)
From Verif Require Import Base AppModel AppSpec AppProofs AppAnalysis AppChecks AppFinal RefModel RefProofs PropertiesApp PropertiesLocal GenModel GenSpec GenProofs PropertiesGen.
Set Implicit Arguments.
Open Scope string_scope. Open Scope list_scope. Open Scope nat_scope.

Section C82.
Context (b : bkind) (disp : list ident) (items : list item) (x : expansion) (Hx : expand b disp items = Some x).
Context (sn ln : ident) (ext : ident -> bool) (dty : ident -> ident -> ty) (core periph : bool) (on : cond -> bool).
Notation comp := (compiled b x sn ln ext dty core periph on).
Notation a := (x_app x).

(** An item that defines a constructor of a struct holds the literal of that struct (so C82_literals_complete is about it). *)
Theorem C82_constructors g n : In g comp -> In (NA n "new") (g_def g) -> g_make g = Some n.
Proof.
  intros I D. apply comp_in in I as (g0 & I & _ & ->). cbn [g_def g_make] in *.
  destruct I as [g I|  | |m k ar g F I|m t I|r s' I|r s' g I I'|N|r t I|h r I|m t I|ch I|]; try (cbn in D; destruct D as [D|D]; [discriminate|destruct D]).
  - exfalso. unfold fixed_items in I. apply in_app_iff in I as [I|I]; [destruct I as [<-|[<-|[]]]; destruct D as [D|[]]; discriminate|]. destruct b; try (destruct I; fail). destruct I as [<-|[<-|[]]]; destruct D as [D|[]]; discriminate.
  - unfold fn_items, res_items, module in I. repeat rewrite in_app_iff in I. destruct I as [[I|I]|[[I|[I|[<-|[]]]]|I]].
    + destruct (a_local ar); [destruct I|]. destruct I as [<-|[<-|[]]]; destruct D as [D|[]]; [discriminate|]. now injection D as <-.
    + destruct (a_shared ar); [destruct I|]. destruct I as [<-|[<-|[]]]; destruct D as [D|[]]; [discriminate|]. now injection D as <-.
    + exfalso. destruct F as [|n0 ar F|n0 t F|n0 t F]; [destruct I..|]. unfold soft in I. apply in_app_iff in I as [I|I]; [destruct I as [<-|[<-|[]]]; destruct D as [D|[]]; discriminate|].
      unfold spawner_items in I. destruct (locals_at x (sw_prio t)); [destruct I|]. destruct I as [<-|[<-|[]]]; [destruct D as [D|[]]; discriminate|destruct D].
    + destruct I as [<-|[<-|[]]]; destruct D as [D|[]]; [discriminate|]. now injection D as <-.
    + destruct D as [D|[]]; discriminate.
    + exfalso. unfold fn_item in I. destruct (ext m); [destruct I|]. destruct I as [<-|[]]; destruct D as [D|[]]; discriminate.
  - exfalso. unfold mutex_item in I'. destruct (sr_lock_free (snd (r, s'))); [destruct I'|]. destruct I' as [<-|[]]. destruct D as [D|[]]. discriminate.
Qed.

(** What the context of [init] has besides its resources: the core peripherals if and only if asked for, the device's if and
    only if asked for, the token of the critical section always; no other context has any of these. *)
Theorem C82_init_context n f : ~ is_internal sn -> ~ is_internal ln -> In f ["core"; "device"; "cs"] ->
  (defined comp (NF (ctx_name n) f) <-> n = fst (ap_init a) /\ (f = "core" -> core = true) /\ (f = "device" -> periph = true)).
Proof.
  intros Is Il If. split.
  - intros D. destruct (@field_def _ _ _ _ Hx _ _ _ _ _ _ _ _ _ D) as [E|[E|(m & k & ar & F & Q)]].
    + exfalso. apply Is. apply (f_equal (fun z => match z with NT s => s | _ => "" end)) in E. cbn in E. rewrite <- E. eexists. reflexivity.
    + exfalso. apply Il. apply (f_equal (fun z => match z with NT s => s | _ => "" end)) in E. cbn in E. rewrite <- E. eexists. reflexivity.
    + destruct Q as [[E _]|[[E _]|[E Q]]].
      * destruct (@local_context_ident m n). symmetry. exact (f_equal (fun z => match z with NT s => s | _ => "" end) E).
      * destruct (@shared_context_ident m n). symmetry. exact (f_equal (fun z => match z with NT s => s | _ => "" end) E).
      * injection E as E. apply append_tail in E as [<- _]; [|reflexivity].
        destruct Q as [-> |(p & I & J)]; [repeat (destruct If as [If|If]; [discriminate|]); destruct If|].
        unfold ctx_fields in I. repeat rewrite in_app_iff in I. destruct I as [I|[I|[I|I]]].
        -- apply in_map_iff in I as (f' & <- & I). destruct J as [J|[]]. injection J as ->. unfold init_fields in I.
           destruct F as [|m ar F|m t F|m t F]; try (destruct I; fail). split; [reflexivity|]. repeat rewrite in_app_iff in I.
           destruct core, periph; cbn in I; split; intros ->; try reflexivity; repeat (destruct I as [I|I]; try discriminate I); destruct I.
        -- exfalso. destruct (a_local ar); [destruct I|]. destruct I as [<-|[]]. destruct J as [J|[]]. injection J as <-. repeat (destruct If as [If|If]; [discriminate|]); destruct If.
        -- exfalso. destruct (a_shared ar); [destruct I|]. destruct I as [<-|[]]. destruct J as [J|[]]. injection J as <-. repeat (destruct If as [If|If]; [discriminate|]); destruct If.
        -- exfalso. destruct (has_spawner x k); [|destruct I]. destruct I as [<-|[]]. destruct J as [J|[]]. injection J as <-. repeat (destruct If as [If|If]; [discriminate|]); destruct If.
  - intros (-> & C & P). eapply (@d_ctx_field b x sn ln ext dty core periph on _ _ _ (Fn_init x)) with (p := mkPc [] [NF (ctx_name (fst (ap_init a))) f] [] []); [reflexivity| |reflexivity|now left].
    cbn [ctx_items hd g_body]. right. unfold ctx_fields. apply in_app_iff. left. apply in_map_iff. exists f. split; [reflexivity|]. cbn [init_fields]. repeat rewrite in_app_iff.
    destruct If as [<-|[<-|[<-|[]]]]; [rewrite C by reflexivity; cbn; auto|rewrite P by reflexivity; cbn; auto|cbn; auto].
Qed.

(** How a task gets at a shared resource: the value of its field mentions the resource itself if and only if the resource is
    lock-free or the task asked for it by shared reference; else it is the proxy, which can only be locked. *)
Theorem C82_shared_access n k p sh lo r ac s g q : src_task items n k p sh lo -> In (r, ac) sh -> shared_field items r s ->
  In g comp -> g_make g = Some (NT (shared_ident n)) -> In q (g_body g) -> In (NF (NT (shared_ident n)) r) (pc_use q) -> r <> "__rtic_internal_marker" ->
  (In (NV (shared_static r)) (pc_use q) <-> sr_lock_free s = true \/ ac = SharedRef) /\
  (In (NA (proxy r) "new") (pc_use q) <-> sr_lock_free s = false /\ ac = Exclusive).
Proof.
  intros T Ir S Ig M Iq U Nm. destruct (@task_fn _ _ _ _ Hx _ _ _ _ _ T) as (c & F & _). apply comp_in in Ig as (g0 & I0 & _ & ->). cbn [g_make g_body] in *. unfold kept_body in Iq. apply filter_In in Iq as [Iq _].
  destruct (@make_cases _ _ _ _ Hx _ _ _ _ _ _ _ _ I0 M) as (m & k' & ar & F' & Q). destruct Q as [[_ E]|[[-> E]|[_ E]]].
  - exfalso. destruct (@local_shared_ident m n). symmetry. exact (f_equal (fun z => match z with NT s => s | _ => "" end) E).
  - injection E as E. apply append_tail in E as [<- _]; [|reflexivity]. destruct (@is_fn_unique _ _ _ _ Hx _ _ _ _ _ F F') as [<- <-]. cbn [a_shared shared_ctor g_body] in Iq.
    apply (@w_shared _ _ _ _ Hx) in S. pose proof (@wf_x _ _ _ _ Hx) as W. apply (@is_task_x _ _ _ _ Hx) in T. destruct (wf_args W T) as [ND _]. cbn [a_shared] in ND.
    assert (L : is_lock_free x r = sr_lock_free s) by (unfold is_lock_free; now rewrite (@in_iget _ _ _ _ (wf_shared W) S)).
    destruct Iq as [<-|Iq]; [destruct U as [U|[]]; discriminate|]. apply in_app_iff in Iq as [Iq|[<-|[]]]; [|destruct U as [U|[]]; now injection U as <-].
    apply in_map_iff in Iq as ([r' ac'] & <- & Iq).
    assert (Er : r' = r). { unfold sr_value in U. destruct (_ || _); cbn in U; destruct U as [U|U]; [now injection U|destruct U as [U|[]]; discriminate|now injection U|repeat (destruct U as [U|U]; [discriminate|]); destruct U]. }
    subst r'. assert (Ea : ac' = ac). { pose proof (@NoDup_map_inj _ _ fst sh (r, ac') (r, ac) ND Iq Ir eq_refl) as E. now injection E. } subst ac'.
    unfold sr_value. cbn [fst snd]. rewrite L. destruct (sr_lock_free s), ac; cbn; split; split; intros H; try tauto; try (now right);
      repeat (destruct H as [H|H]; try discriminate H; try tauto).
  - exfalso. destruct (@shared_context_ident n m). exact (f_equal (fun z => match z with NT s => s | _ => "" end) E).
Qed.

(** For every priority of software tasks there is a dispatcher: the handler of the interrupt assigned to that priority, for
    priority 0 the function that main calls; it runs the executors of exactly the tasks of that priority that are not
    compiled out. *)
Theorem C82_dispatchers p n0 sh0 lo0 : (forall n r, In (ITask n r) items -> ~ is_internal n) -> src_task items n0 KSoft p sh0 lo0 ->
  exists g i, In g comp /\ g_def g = [NV i] /\ (0 < p -> In (p, i) (x_ints x)) /\ (p = 0 -> i = zero_dispatcher) /\
  forall n, In (NV (task_ident n "EXEC")) (uses_of g) <-> (exists sh lo, src_task items n KSoft p sh lo) /\ on (CTask n) = true.
Proof.
  intros NI T. destruct (@expand_accepted _ _ _ _ Hx) as [a0 A].
  assert (C : exists l, find (fun c => fst c =? p) (y_channels (x_ana x)) = Some (p, l) /\ chan x p = l).
  { assert (I : In n0 (chan x p)) by (apply (chan_in A); eauto). unfold chan in *. destruct (find (fun c => fst c =? p) (y_channels (x_ana x))) as [[p' l]|] eqn:E; [|destruct I].
    exists l. split; [|reflexivity]. apply find_some in E as [_ E]. cbn in E. apply Nat.eqb_eq in E. now subst. }
  destruct C as (l & Fl & El). pose proof (proj1 (find_some _ _ Fl)) as Ic.
  exists (mkG [] (g_def (disp_item x ext (p, l))) (g_make (disp_item x ext (p, l))) (kept_body on (disp_item x ext (p, l)))), (disp_name x p).
  split; [apply comp_in; exists (disp_item x ext (p, l)); split; [now apply It_disp|split; reflexivity]|]. split; [reflexivity|]. split; [|split].
  - intros Hp. unfold disp_name. rewrite (proj2 (Nat.ltb_lt _ _) Hp). destruct (find (fun i => fst i =? p) (x_ints x)) as [[p' i]|] eqn:E.
    + apply find_some in E as [E1 E2]. cbn in E2. apply Nat.eqb_eq in E2. now subst.
    + exfalso. destruct (proj2 (ints_prio A p)) as [d Id]; [split; [exact Hp|eauto]|]. pose proof (find_none _ _ E _ Id) as X. cbn in X. rewrite Nat.eqb_refl in X. discriminate.
  - intros ->. reflexivity.
  - intros n. unfold uses_of, kept_body. cbn [g_body disp_item fst snd]. rewrite in_flat_map. rewrite <- (chan_in A), El. split.
    + intros (q & Iq & U). apply filter_In in Iq as [Iq Oq]. apply in_map_iff in Iq as (t & <- & It). cbn [pc_use pc_if holds forallb] in *. rewrite andb_true_r in Oq.
      apply in_app_iff in U as [U|[U|[]]].
      * exfalso. unfold user_fn in U. destruct (ext t); [destruct U|]. destruct U as [U|[]]. injection U as U. rewrite <- El in It. apply (chan_in A) in It as (sh & lo & Tt). assert (It' : exists r0, In (ITask t r0) items) by (inversion Tt; eauto). destruct It' as [r0 It']. apply (NI _ _ It'). rewrite U. eexists. reflexivity.
      * injection U as U. apply append_tail in U as [<- _]; [|reflexivity]. auto.
    + intros [It Ot]. exists (mkPc [CTask n] [] (user_fn ext n ++ [NV (task_ident n "EXEC")]) []). split.
      * apply filter_In. split; [apply in_map_iff; now exists n|]. cbn. now rewrite Ot.
      * cbn [pc_use]. apply in_app_iff. right. now left.
Qed.
End C82.

Definition name_dec (n m : name) : {n = m} + {n <> m}.
Proof. decide equality; apply string_dec. Defined.
Definition nin (n : name) (l : list name) : bool := if in_dec name_dec n l then true else false.
Lemma nin_true n l : nin n l = true -> In n l.
Proof. unfold nin. destruct (in_dec name_dec n l); [auto|discriminate]. Qed.
Lemma nin_false n l : nin n l = false -> ~ In n l.
Proof. unfold nin. destruct (in_dec name_dec n l); [discriminate|auto]. Qed.
Definition makes (n : name) (g : gitem) : bool := match g_make g with Some m => if name_dec m n then true else false | None => false end.
Lemma makes_true n g : makes n g = true -> g_make g = Some n.
Proof. unfold makes. destruct (g_make g) as [m|]; [|discriminate]. destruct (name_dec m n); [now subst|discriminate]. Qed.
(** Everything is compiled in.  [work] of priority 1 runs in QEI0; [uart] has [raw] (lock-free) and [cfg] (by reference) directly,
    [cnt] through its proxy; [init] has [core] and [device], [work] has not. *)
Notation ex_all := (ex_comp (fun _ => true)).
Example C82_pieces_case : (exists g, In g ex_all /\ g_def g = [NV "QEI0"] /\ In (NV (task_ident "work" "EXEC")) (uses_of g) /\ ~ In (NV (task_ident "log" "EXEC")) (uses_of g)) /\
  (exists g q, In g ex_all /\ g_make g = Some (NT (shared_ident "uart")) /\ In q (g_body g) /\ In (NF (NT (shared_ident "uart")) "cnt") (pc_use q) /\ In (NA (proxy "cnt") "new") (pc_use q)) /\
  (exists g q, In g ex_all /\ g_make g = Some (NT (shared_ident "uart")) /\ In q (g_body g) /\ In (NF (NT (shared_ident "uart")) "cfg") (pc_use q) /\ In (NV (shared_static "cfg")) (pc_use q)) /\
  defined ex_all (NF (ctx_name "init") "core") /\ ~ defined ex_all (NF (ctx_name "work") "core") /\
  (exists g, In g ex_all /\ In (NA (NT (shared_ident "uart")) "new") (g_def g)).
Proof.
  assert (V : forall r u, existsb (fun g => makes (NT (shared_ident "uart")) g && existsb (fun q => nin (NF (NT (shared_ident "uart")) r) (pc_use q) && nin u (pc_use q)) (g_body g)) ex_all = true ->
    exists g q, In g ex_all /\ g_make g = Some (NT (shared_ident "uart")) /\ In q (g_body g) /\ In (NF (NT (shared_ident "uart")) r) (pc_use q) /\ In u (pc_use q)).
  { intros r u H. apply existsb_exists in H as (g & I & H). apply andb_true_iff in H as [H1 H2]. apply existsb_exists in H2 as (q & Iq & H2). apply andb_true_iff in H2 as [H2 H3]. exists g, q.
    split; [exact I|]. split; [now apply makes_true|]. split; [exact Iq|]. split; now apply nin_true. }
  split; [|split; [|split; [|split; [|split]]]].
  - assert (H : existsb (fun g => nin (NV "QEI0") (g_def g) && (List.length (g_def g) =? 1) && nin (NV (task_ident "work" "EXEC")) (uses_of g) && negb (nin (NV (task_ident "log" "EXEC")) (uses_of g))) ex_all = true) by (vm_compute; reflexivity).
    apply existsb_exists in H as (g & I & H). apply andb_true_iff in H as [H H4]. apply andb_true_iff in H as [H H3]. apply andb_true_iff in H as [H1 H2]. exists g. split; [exact I|]. apply nin_true in H1, H3. apply negb_true_iff, nin_false in H4.
    split; [|split; [exact H3|exact H4]]. apply Nat.eqb_eq in H2. destruct (g_def g) as [|d [|]]; try discriminate. destruct H1 as [<-|[]]. reflexivity.
  - apply V. vm_compute. reflexivity.
  - apply V. vm_compute. reflexivity.
  - apply (@C82_init_context _ _ _ _ ex_accepted); [intros [t E]; discriminate..|now left|]. split; [reflexivity|]. split; intros; [reflexivity|discriminate].
  - assert (NS : ~ is_internal "Shared") by (intros [t E]; discriminate). assert (NL : ~ is_internal "Local") by (intros [t E]; discriminate).
    intros D. destruct (proj1 (@C82_init_context _ _ _ _ ex_accepted "Shared" "Local" (fun _ => false) ex_dty true true (fun _ => true) "work" "core" NS NL (or_introl eq_refl)) D) as [E _]. vm_compute in E. discriminate.
  - assert (H : existsb (fun g => nin (NA (NT (shared_ident "uart")) "new") (g_def g)) ex_all = true) by (vm_compute; reflexivity). apply existsb_exists in H as (g & I & H). exists g. split; [exact I|now apply nin_true].
Qed.
Print Assumptions C82_constructors. Print Assumptions C82_init_context. Print Assumptions C82_shared_access. Print Assumptions C82_dispatchers.
