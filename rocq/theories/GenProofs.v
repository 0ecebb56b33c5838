(** Proofs about the generated program (GenModel). *)
From Verif Require Import Base AppModel AppSpec AppProofs AppAnalysis AppChecks AppFinal RefProofs GenModel GenSpec.
Set Implicit Arguments.

Lemma chans_tasks (sw : list (ident * swtask)) m c t : In c (fold_left (fun m t => chan_insert m (sw_prio (snd t)) (fst t)) sw m) -> In t (snd c) ->
  In t (map fst sw) \/ exists d, In d m /\ In t (snd d).
Proof.
  revert m. induction sw as [|u sw IH]; intros m I J; cbn in *; [right; eauto|].
  destruct (IH _ I J) as [K|(d & K & L)]; [auto|]. unfold chan_insert in K. destruct (existsb _ m).
  - apply in_map_iff in K as (d0 & <- & K). destruct (fst d0 =? sw_prio (snd u)); [|right; eauto]. cbn in L. apply set_insert_in in L as [L | ->]; [right; eauto|auto].
  - apply in_app_iff in K as [K|[<-|[]]]; [right; eauto|]. cbn in L. destruct L as [<-|[]]. auto.
Qed.

(** ** Strings *)
Lemma append_len u v : String.length (append u v) = String.length u + String.length v.
Proof. induction u as [|c u IH]; cbn; [reflexivity|]. now rewrite IH. Qed.
Lemma append_tail u v s t : append u s = append v t -> String.length s = String.length t -> u = v /\ s = t.
Proof.
  revert v. induction u as [|c u IH]; intros v E L; destruct v as [|d v]; cbn in E.
  - auto.
  - subst s. cbn in L. rewrite append_len in L. lia.
  - subst t. cbn in L. rewrite append_len in L. lia.
  - injection E as -> E. destruct (IH v E L) as [-> ->]. auto.
Qed.
Lemma append_assoc u v w : append (append u v) w = append u (append v w).
Proof. induction u as [|c u IH]; cbn; [reflexivity|]. now rewrite IH. Qed.
Lemma append_head u s t : append u s = append u t -> s = t.
Proof. induction u as [|c u IH]; cbn; [auto|]. intros E. injection E as E. auto. Qed.
(** Names made by the macro. *)
Lemma local_ident_inj n n' : local_ident n = local_ident n' -> n = n'.
Proof. intros E. apply append_head in E. now apply append_tail in E. Qed.
Lemma shared_ident_inj n n' : shared_ident n = shared_ident n' -> n = n'.
Proof. intros E. apply append_head in E. now apply append_tail in E. Qed.
Lemma task_ident_inj n n' s : task_ident n s = task_ident n' s -> n = n'.
Proof. intros E. apply append_head in E. now apply append_tail in E. Qed.
Lemma local_shared_ident n n' : local_ident n <> shared_ident n'.
Proof.
  intros E. apply append_head in E. change (append n (append "Loca" "lResources") = append n' (append "Share" "dResources")) in E. rewrite <- !append_assoc in E.
  apply append_tail in E as [_ E]; [discriminate|reflexivity].
Qed.
Lemma local_context_ident n n' : local_ident n <> task_ident n' "Context".
Proof.
  intros E. apply append_head in E. change (append n (append "LocalR" "esources") = append n' "_Context") in E. rewrite <- !append_assoc in E.
  apply append_tail in E as [_ E]; [discriminate|reflexivity].
Qed.
Lemma shared_context_ident n n' : shared_ident n <> task_ident n' "Context".
Proof.
  intros E. apply append_head in E. change (append n (append "SharedR" "esources") = append n' "_Context") in E. rewrite <- !append_assoc in E.
  apply append_tail in E as [_ E]; [discriminate|reflexivity].
Qed.

Section Gen.
Context (b : bkind) (disp : list ident) (items : list item) (x : expansion) (Hx : expand b disp items = Some x).
Context (sn ln : ident) (ext : ident -> bool) (dty : ident -> ident -> ty) (core periph : bool) (on : cond -> bool).
Notation a := (x_app x).
Notation prog := (program b x sn ln ext dty core periph).
Notation comp := (compiled b x sn ln ext dty core periph on).

(** ** Functions *)
Inductive is_fn : ident -> ctxt -> args -> Prop :=
| Fn_init : is_fn (fst (ap_init a)) XInit (mkArgs [] (snd (ap_init a)))
| Fn_idle n ar : ap_idle a = Some (n, ar) -> is_fn n XIdle ar
| Fn_hw n t : In (n, t) (ap_hw a) -> is_fn n XHard (hw_args t)
| Fn_sw n t : In (n, t) (ap_sw a) -> is_fn n (soft t) (sw_args t).
Notation fnit := (fn_items x sn ln ext dty core periph).

Lemma fn_in n k ar g : is_fn n k ar -> In g (fnit n k ar) -> In g prog.
Proof.
  intros F I. unfold program. repeat rewrite in_app_iff. destruct F as [|n ar F|n t F|n t F].
  - right. left. unfold init_items. apply in_app_iff. now right.
  - do 2 right. left. unfold idle_items. now rewrite F.
  - do 3 right. left. unfold hw_items. apply in_flat_map. exists (n, t). split; [exact F|]. now right.
  - do 4 right. left. unfold sw_items. apply in_flat_map. exists (n, t). split; [exact F|]. exact I.
Qed.

(** Cases of items of the program. *)
Inductive is_item : gitem -> Prop :=
| It_fixed g : In g (fixed_items b) -> is_item g
| It_shared_struct : is_item (mkG [] [NT sn] None (map (fun r => mkPc [CShared (fst r)] [NF (NT sn) (fst r)] [] [sr_ty (snd r)]) (ap_shared a)))
| It_local_struct : is_item (mkG [] [NT ln] None (map (fun r => mkPc [CLocal (fst r)] [NF (NT ln) (fst r)] [] [snd r]) (ap_local a)))
| It_fn n k ar g : is_fn n k ar -> In g (fnit n k ar) -> is_item g
| It_handler n t : In (n, t) (ap_hw a) -> is_item (handler ext n t)
| It_static r s : In (r, s) (ap_shared a) -> is_item (shared_static_item (r, s))
| It_mutex r s g : In (r, s) (ap_shared a) -> In g (mutex_item (r, s)) -> is_item g
| It_proxies : flat_map proxy_pieces (ap_shared a) <> [] -> is_item (mkG [] [NT "shared_resources"%string] None (flat_map proxy_pieces (ap_shared a)))
| It_lstatic r t : In (r, t) (ap_local a) -> is_item (mkG [CLocal r] [NV (local_static r)] None [mkPc [] [] [] [t]])
| It_dstatic f r : In (f, r) (declared_locals a) -> is_item (mkG [CDecl f r] [NV (declared_static f r)] None [mkPc [] [] [] [dty f r]])
| It_exec n t : In (n, t) (ap_sw a) -> is_item (exec_item ext n)
| It_disp c : In c (y_channels (x_ana x)) -> is_item (disp_item x ext c)
| It_main : is_item (main_item b x sn ln ext).

Lemma item_iff g : In g prog <-> is_item g.
Proof.
  unfold program. repeat rewrite in_app_iff. split.
  - intros [I|[I|[I|[I|[I|[I|[I|[I|I]]]]]]]].
    + now apply It_fixed.
    + unfold init_items in I. apply in_app_iff in I as [I|I].
      * destruct I as [<-|[<-|[]]]; [apply It_shared_struct|apply It_local_struct].
      * eapply It_fn; [apply Fn_init|exact I].
    + unfold idle_items in I. destruct (ap_idle a) as [[n ar]|] eqn:E; [|destruct I]. eapply It_fn; [eapply Fn_idle; eassumption|exact I].
    + unfold hw_items in I. apply in_flat_map in I as ([n t] & J & [<-|I]); cbn in *; [now apply It_handler|]. eapply It_fn; [eapply Fn_hw; eassumption|exact I].
    + unfold sw_items in I. apply in_flat_map in I as ([n t] & J & I). eapply It_fn; [eapply Fn_sw; eassumption|exact I].
    + unfold shared_items in I. apply in_app_iff in I as [I|I].
      * apply in_flat_map in I as ([r s] & J & [<-|I]); [now apply It_static|]. now apply It_mutex with r s.
      * pose proof It_proxies as IP. destruct (flat_map proxy_pieces (ap_shared a)) as [|p l]; [destruct I|]. destruct I as [<-|[]]. apply IP. discriminate.
    + unfold local_items in I. apply in_app_iff in I as [I|I]; apply in_map_iff in I as ([r t] & <- & I); [now apply It_lstatic|now apply It_dstatic].
    + unfold disp_items in I. apply in_app_iff in I as [I|I]; apply in_map_iff in I as (c & <- & I); [|now apply It_disp]. destruct c as [n t]. eapply It_exec. exact I.
    + destruct I as [<-|[]]. apply It_main.
  - intros I. destruct I as [g I|  | |n k ar g F I|n t I|r s I|r s g I J|N|r t I|f r I|n t I|c I|].
    + now left.
    + right. left. unfold init_items. now left.
    + right. left. unfold init_items. right. now left.
    + pose proof (fn_in g F I) as J. unfold program in J. now repeat rewrite in_app_iff in J.
    + do 3 right. left. unfold hw_items. apply in_flat_map. exists (n, t). split; [exact I|now left].
    + do 5 right. left. unfold shared_items. apply in_app_iff. left. apply in_flat_map. exists (r, s). split; [exact I|now left].
    + do 5 right. left. unfold shared_items. apply in_app_iff. left. apply in_flat_map. exists (r, s). split; [exact I|now right].
    + do 5 right. left. unfold shared_items. apply in_app_iff. right. destruct (flat_map proxy_pieces (ap_shared a)); [now destruct N|now left].
    + do 6 right. left. unfold local_items. apply in_app_iff. left. apply in_map_iff. now exists (r, t).
    + do 6 right. left. unfold local_items. apply in_app_iff. right. apply in_map_iff. now exists (f, r).
    + do 7 right. left. unfold disp_items. apply in_app_iff. left. apply in_map_iff. now exists (n, t).
    + do 7 right. left. unfold disp_items. apply in_app_iff. right. apply in_map_iff. now exists c.
    + do 8 right. now left.
Qed.

(** ** What is compiled *)
Lemma comp_def g n : is_item g -> holds on (g_if g) = true -> In n (g_def g) -> defined comp n.
Proof.
  intros I C D. exists (mkG [] (g_def g) (g_make g) (kept_body on g)). split.
  - unfold compiled. apply in_map_iff. exists g. split; [reflexivity|]. apply filter_In. split; [now apply item_iff|exact C].
  - unfold defs. cbn. apply in_app_iff. now left.
Qed.
Lemma comp_piece g p n : is_item g -> holds on (g_if g) = true -> In p (g_body g) -> holds on (pc_if p) = true -> In n (pc_def p) -> defined comp n.
Proof.
  intros I C J D E. exists (mkG [] (g_def g) (g_make g) (kept_body on g)). split.
  - unfold compiled. apply in_map_iff. exists g. split; [reflexivity|]. apply filter_In. split; [now apply item_iff|exact C].
  - unfold defs. cbn. apply in_app_iff. right. apply in_flat_map. exists p. split; [|exact E]. unfold kept_body. now apply filter_In.
Qed.
Lemma comp_in g : In g comp <-> exists g0, is_item g0 /\ holds on (g_if g0) = true /\ g = mkG [] (g_def g0) (g_make g0) (kept_body on g0).
Proof.
  unfold compiled. rewrite in_map_iff. split.
  - intros (g0 & <- & I). apply filter_In in I as [I C]. exists g0. split; [now apply item_iff|]. auto.
  - intros (g0 & I & C & ->). exists g0. split; [reflexivity|]. apply filter_In. split; [now apply item_iff|exact C].
Qed.
Lemma comp_used n : used comp n <-> exists g p, is_item g /\ holds on (g_if g) = true /\ In p (g_body g) /\ holds on (pc_if p) = true /\ In n (pc_use p).
Proof.
  unfold used. split.
  - intros (g & I & J). apply comp_in in I as (g0 & I & C & ->). unfold uses_of in J. cbn in J. apply in_flat_map in J as (p & J & U). unfold kept_body in J. apply filter_In in J as [J D]. exists g0, p. auto.
  - intros (g & p & I & C & J & D & U). exists (mkG [] (g_def g) (g_make g) (kept_body on g)). split; [apply comp_in; eauto|]. unfold uses_of. cbn. apply in_flat_map. exists p. split; [|exact U]. unfold kept_body. now apply filter_In.
Qed.
Lemma comp_types T : mentioned comp T <-> exists g p, is_item g /\ holds on (g_if g) = true /\ In p (g_body g) /\ holds on (pc_if p) = true /\ In T (pc_ty p).
Proof.
  unfold mentioned. split.
  - intros (g & I & J). apply comp_in in I as (g0 & I & C & ->). unfold types_of in J. cbn in J. apply in_flat_map in J as (p & J & U). unfold kept_body in J. apply filter_In in J as [J D]. exists g0, p. auto.
  - intros (g & p & I & C & J & D & U). exists (mkG [] (g_def g) (g_make g) (kept_body on g)). split; [apply comp_in; eauto|]. unfold types_of. cbn. apply in_flat_map. exists p. split; [|exact U]. unfold kept_body. now apply filter_In.
Qed.

(** ** Facts about accepted applications *)
Lemma shared_has n k ar r ac : is_fn n k ar -> In (r, ac) (a_shared ar) -> exists s, In (r, s) (ap_shared a).
Proof.
  intros F I. destruct (@expand_accepted _ _ _ _ Hx) as [a0 A]. assert (T : exists k p, is_task a n k p ar).
  { destruct F as [|n ar F|n t F|n t F]; [destruct I|..]; do 2 eexists; [eapply T_idle|eapply T_hw|eapply T_sw]; eassumption. }
  destruct T as (k' & p & T). apply (acc_is_task A) in T. assert (U : uses_shared items n p r ac) by (apply (uses_shared_iff A); eauto).
  destruct (used_shared_declared A U) as (s & S). apply (pd_shared (ac_parsed A)) in S. rewrite <- (acc_shared A) in S. eauto.
Qed.
Lemma local_has n k ar r : is_fn n k ar -> In (r, External) (a_local ar) -> exists t, In (r, t) (ap_local a).
Proof.
  intros F I. destruct (@expand_accepted _ _ _ _ Hx) as [a0 A]. assert (T : exists k p, is_task a n k p ar).
  { destruct F as [|n ar F|n t F|n t F]; [cbn in I; apply (wf_init (@wf_x _ _ _ _ Hx)) in I; discriminate|..]; do 2 eexists; [eapply T_idle|eapply T_hw|eapply T_sw]; eassumption. }
  destruct T as (k' & p & T). apply (acc_is_task A) in T. assert (U : uses_local items n p r) by (apply (uses_local_iff A); eauto).
  destruct (used_local_declared A U) as (s & S). apply (pd_local (ac_parsed A)) in S. rewrite <- (acc_local A) in S. eauto.
Qed.
Lemma decl_has n k ar r : is_fn n k ar -> In (r, Declared) (a_local ar) -> In (n, r) (declared_locals a).
Proof.
  intros F I. assert (G : In (n, r) (declareds n (a_local ar))). { unfold declareds. apply in_map_iff. exists (r, Declared). split; [reflexivity|]. now apply filter_In. }
  unfold declared_locals. repeat rewrite in_app_iff. destruct F as [|n ar F|n t F|n t F]; [auto|rewrite F; auto|do 2 right; left|do 3 right]; apply in_flat_map; exists (n, t); auto.
Qed.
Lemma decl_fn f r : In (f, r) (declared_locals a) -> exists k ar, is_fn f k ar /\ In (r, Declared) (a_local ar).
Proof.
  assert (G : forall n lo, In (f, r) (declareds n lo) -> n = f /\ In (r, Declared) lo).
  { intros n lo I. unfold declareds in I. apply in_map_iff in I as ([r' t] & E & I). injection E as -> ->. apply filter_In in I as [I C]. destruct t; [discriminate|auto]. }
  unfold declared_locals. repeat rewrite in_app_iff. intros [I|[I|[I|I]]].
  - apply G in I as [<- I]. do 2 eexists. split; [apply Fn_init|exact I].
  - destruct (ap_idle a) as [[n ar]|] eqn:E; [|destruct I]. apply G in I as [<- I]. do 2 eexists. split; [eapply Fn_idle; eassumption|exact I].
  - apply in_flat_map in I as ([n t] & J & I). apply G in I as [E I]. cbn in E. subst n. do 2 eexists. split; [eapply Fn_hw; eassumption|exact I].
  - apply in_flat_map in I as ([n t] & J & I). apply G in I as [E I]. cbn in E. subst n. do 2 eexists. split; [eapply Fn_sw; eassumption|exact I].
Qed.
Lemma chan_tasks c t : In c (y_channels (x_ana x)) -> In t (snd c) -> exists u, In (t, u) (ap_sw a).
Proof.
  destruct (@expand_accepted _ _ _ _ Hx) as [a0 A]. rewrite (acc_ana A). cbn [y_channels]. intros I J. destruct (@chans_tasks _ _ _ _ I J) as [K|(d & [] & _)].
  apply in_map_iff in K as ([n u] & <- & K). rewrite (acc_sw A). eauto.
Qed.

(** ** Definitions *)
Section Fn.
Context (n : ident) (k : ctxt) (ar : args) (F : is_fn n k ar).
Lemma ID g : In g (fnit n k ar) -> is_item g.
Proof. exact (It_fn g F). Qed.
Lemma in_module g : In g (module x ext core periph n k ar) -> In g (fnit n k ar).
Proof. intros I. unfold fn_items. repeat rewrite in_app_iff. auto. Qed.
Lemma in_mod_item : In (mod_item n k ar) (fnit n k ar).
Proof. apply in_module. unfold module. repeat rewrite in_app_iff. right. right. now left. Qed.
Lemma in_ctx g : In g (ctx_items x core periph n k ar) -> In g (fnit n k ar).
Proof. intros I. apply in_module. unfold module. repeat rewrite in_app_iff. auto. Qed.
Lemma d_mod : holds on (mod_cond n k) = true -> defined comp (NT n).
Proof. intros C. eapply comp_def; [apply (@ID _ in_mod_item)|exact C|now left]. Qed.
Lemma d_ctx : holds on (ctx_cond n k) = true -> defined comp (ctx_name n).
Proof. intros C. eapply comp_def with (g := mkG (ctx_cond n k) _ _ _); [eapply ID; apply in_ctx; left; reflexivity|exact C|now left]. Qed.
Lemma d_ctx_new : holds on (ctx_cond n k) = true -> defined comp (NA (ctx_name n) "new").
Proof. intros C. eapply comp_def with (g := mkG (ctx_cond n k) _ _ _); [eapply ID; apply in_ctx; right; left; reflexivity|exact C|now left]. Qed.
Lemma mod_ctx : holds on (ctx_cond n k) = true -> holds on (mod_cond n k) = true.
Proof. destruct k; auto. Qed.
Lemma d_in_ctx : holds on (ctx_cond n k) = true -> defined comp (NIn n "Context").
Proof.
  intros C. eapply comp_piece with (p := mkPc (ctx_cond n k) [NIn n "Context"] [ctx_name n] []); [apply (@ID _ in_mod_item)|now apply mod_ctx| |exact C|now left]. unfold mod_item. cbn. repeat rewrite in_app_iff. do 3 right. now left.
Qed.
Lemma d_context c : holds on (ctx_cond n k) = true -> In c (context_of n) -> defined comp c.
Proof. intros C [<-|[<-|[<-|[]]]]; [apply d_mod, mod_ctx, C|apply d_in_ctx, C|apply d_ctx_new, C]. Qed.
Lemma d_fn c : holds on (fn_cond n k) = true -> In c (user_fn ext n) -> defined comp c.
Proof.
  unfold user_fn. intros C I. destruct (ext n) eqn:E; [destruct I|]. destruct I as [<-|[]].
  eapply comp_def with (g := mkG (fn_cond n k) [NV n] None _); [eapply ID; unfold fn_items, fn_item; rewrite E; repeat rewrite in_app_iff; right; right; left; reflexivity|exact C|now left].
Qed.
Lemma in_lo g : a_local ar <> [] -> In g [local_struct x dty n (a_local ar); local_ctor n (a_local ar)] -> In g (fnit n k ar).
Proof. intros N I. unfold fn_items, res_items. repeat rewrite in_app_iff. left. left. destruct (a_local ar); [now destruct N|exact I]. Qed.
Lemma in_sh g : a_shared ar <> [] -> In g [shared_struct x n (a_shared ar); shared_ctor x n (a_shared ar)] -> In g (fnit n k ar).
Proof. intros N I. unfold fn_items, res_items. repeat rewrite in_app_iff. left. right. destruct (a_shared ar); [now destruct N|exact I]. Qed.
Lemma d_lo : a_local ar <> [] -> defined comp (NT (local_ident n)).
Proof. intros N. eapply comp_def; [eapply ID, in_lo; [exact N|left; reflexivity]|reflexivity|now left]. Qed.
Lemma d_sh : a_shared ar <> [] -> defined comp (NT (shared_ident n)).
Proof. intros N. eapply comp_def; [eapply ID, in_sh; [exact N|left; reflexivity]|reflexivity|now left]. Qed.
Lemma d_lo_new : a_local ar <> [] -> defined comp (NA (NT (local_ident n)) "new").
Proof. intros N. eapply comp_def; [eapply ID, in_lo; [exact N|right; left; reflexivity]|reflexivity|now left]. Qed.
Lemma d_sh_new : a_shared ar <> [] -> defined comp (NA (NT (shared_ident n)) "new").
Proof. intros N. eapply comp_def; [eapply ID, in_sh; [exact N|right; left; reflexivity]|reflexivity|now left]. Qed.
Lemma d_lo_field p f : a_local ar <> [] -> In p (g_body (local_struct x dty n (a_local ar))) -> holds on (pc_if p) = true -> In f (pc_def p) -> defined comp f.
Proof. intros N I C J. eapply comp_piece; [eapply ID, in_lo; [exact N|left; reflexivity]|reflexivity|exact I|exact C|exact J]. Qed.
Lemma d_sh_field p f : a_shared ar <> [] -> In p (g_body (shared_struct x n (a_shared ar))) -> holds on (pc_if p) = true -> In f (pc_def p) -> defined comp f.
Proof. intros N I C J. eapply comp_piece; [eapply ID, in_sh; [exact N|left; reflexivity]|reflexivity|exact I|exact C|exact J]. Qed.
Lemma d_in_lo : a_local ar <> [] -> holds on (mod_cond n k) = true -> defined comp (NIn n "LocalResources").
Proof.
  intros N C. eapply comp_piece with (p := mkPc [] [NIn n "LocalResources"] [NT (local_ident n)] []); [apply (@ID _ in_mod_item)|exact C| |reflexivity|now left]. unfold mod_item. cbn. apply in_app_iff. left. destruct (a_local ar); [now destruct N|now left].
Qed.
Lemma d_in_sh : a_shared ar <> [] -> holds on (mod_cond n k) = true -> defined comp (NIn n "SharedResources").
Proof.
  intros N C. eapply comp_piece with (p := mkPc [] [NIn n "SharedResources"] [NT (shared_ident n)] []); [apply (@ID _ in_mod_item)|exact C| |reflexivity|now left]. unfold mod_item. cbn. repeat rewrite in_app_iff. right. left. destruct (a_shared ar); [now destruct N|now left].
Qed.
Lemma d_ctx_field p f : holds on (ctx_cond n k) = true -> In p (g_body (hd (mkG [] [] None []) (ctx_items x core periph n k ar))) -> holds on (pc_if p) = true -> In f (pc_def p) -> defined comp f.
Proof. intros C I D J. eapply comp_piece; [eapply ID; apply in_ctx; left; reflexivity|exact C|exact I|exact D|exact J]. Qed.
End Fn.
Lemma in_soft n t g : In g (spawn_items ext n (sw_inputs t) ++ spawner_items x n (sw_prio t)) -> In g (fnit n (soft t) (sw_args t)).
Proof. intros I. apply in_module. unfold module, soft. apply in_app_iff. now left. Qed.
Lemma d_spawn n t : In (n, t) (ap_sw a) -> on (CTask n) = true -> defined comp (NV (task_ident n "spawn")).
Proof. intros I C. eapply comp_def with (g := mkG [CTask n] _ _ _); [eapply It_fn; [exact (Fn_sw _ _ I)|apply in_soft; left; reflexivity]|cbn; now rewrite C|now left]. Qed.
Lemma d_waker n t : In (n, t) (ap_sw a) -> on (CTask n) = true -> defined comp (NV (task_ident n "waker")).
Proof. intros I C. eapply comp_def with (g := mkG [CTask n] _ _ _); [eapply It_fn; [exact (Fn_sw _ _ I)|apply in_soft; right; left; reflexivity]|cbn; now rewrite C|now left]. Qed.
Lemma d_exec n t : In (n, t) (ap_sw a) -> on (CTask n) = true -> defined comp (NV (task_ident n "EXEC")).
Proof. intros I C. eapply comp_def with (g := exec_item ext n); [now apply It_exec with t|cbn; now rewrite C|now left]. Qed.
Lemma d_spawner n t : In (n, t) (ap_sw a) -> locals_at x (sw_prio t) <> [] -> defined comp (NT (task_ident n "LocalSpawner")).
Proof.
  intros I N. eapply comp_def with (g := mkG [] [NT (task_ident n "LocalSpawner")] None []); [eapply It_fn; [exact (Fn_sw _ _ I)|apply in_soft; apply in_app_iff; right]|reflexivity|now left].
  unfold spawner_items. destruct (locals_at x (sw_prio t)); [now destruct N|now left].
Qed.
Lemma d_sstatic r s : In (r, s) (ap_shared a) -> on (CShared r) = true -> defined comp (NV (shared_static r)).
Proof. intros I C. eapply comp_def; [apply (It_static _ _ I)|cbn; now rewrite C|now left]. Qed.
Lemma d_lstatic r t : In (r, t) (ap_local a) -> on (CLocal r) = true -> defined comp (NV (local_static r)).
Proof. intros I C. eapply comp_def; [apply (It_lstatic _ _ I)|cbn; now rewrite C|now left]. Qed.
Lemma d_dstatic f r : In (f, r) (declared_locals a) -> on (CDecl f r) = true -> defined comp (NV (declared_static f r)).
Proof. intros I C. eapply comp_def; [apply (It_dstatic _ _ I)|cbn; now rewrite C|now left]. Qed.
Lemma d_proxy r s c : In (r, s) (ap_shared a) -> sr_lock_free s = false -> on (CShared r) = true -> In c [NT "shared_resources"; proxy r; NA (proxy r) "new"] -> defined comp c.
Proof.
  intros I L C J. assert (Q : In (mkPc [CShared r] [proxy r] [] []) (flat_map proxy_pieces (ap_shared a)) /\ In (mkPc [CShared r] [NA (proxy r) "new"] [proxy r] []) (flat_map proxy_pieces (ap_shared a))).
  { split; apply in_flat_map; exists (r, s); (split; [exact I|]); unfold proxy_pieces; cbn [snd fst]; rewrite L; [now left|right; now left]. }
  destruct Q as [Q1 Q2]. assert (IP : is_item (mkG [] [NT "shared_resources"%string] None (flat_map proxy_pieces (ap_shared a)))) by (apply It_proxies; intros E; rewrite E in Q1; destruct Q1).
  destruct J as [<-|[<-|[<-|[]]]].
  - eapply comp_def; [exact IP|reflexivity|now left].
  - eapply comp_piece; [exact IP|reflexivity|exact Q1|cbn; now rewrite C|now left].
  - eapply comp_piece; [exact IP|reflexivity|exact Q2|cbn; now rewrite C|now left].
Qed.
Lemma d_sfield r s : In (r, s) (ap_shared a) -> on (CShared r) = true -> defined comp (NF (NT sn) r).
Proof. intros I C. eapply comp_piece; [apply It_shared_struct|reflexivity|cbn; apply in_map_iff; exists (r, s); split; [reflexivity|exact I]|cbn; now rewrite C|now left]. Qed.
Lemma d_lfield r s : In (r, s) (ap_local a) -> on (CLocal r) = true -> defined comp (NF (NT ln) r).
Proof. intros I C. eapply comp_piece; [apply It_local_struct|reflexivity|cbn; apply in_map_iff; exists (r, s); split; [reflexivity|exact I]|cbn; now rewrite C|now left]. Qed.
Lemma d_sn : defined comp (NT sn). Proof. eapply comp_def; [apply It_shared_struct|reflexivity|now left]. Qed.
Lemma d_ln : defined comp (NT ln). Proof. eapply comp_def; [apply It_local_struct|reflexivity|now left]. Qed.
Lemma one c : holds on [c] = true -> on c = true.
Proof. cbn. now rewrite andb_true_r. Qed.
Lemma lock_free_s r s : In (r, s) (ap_shared a) -> is_lock_free x r = sr_lock_free s.
Proof. intros I. unfold is_lock_free. now rewrite (in_iget _ _ _ (wf_shared (@wf_x _ _ _ _ Hx)) I). Qed.

(** ** Functions are unique *)
Lemma fn_kind n k ar : is_fn n k ar -> (n = fst (ap_init a) /\ k = XInit /\ ar = mkArgs [] (snd (ap_init a))) \/
  exists K p, is_task a n K p ar /\ match K with KIdle => k = XIdle | KHard _ => k = XHard | KSoft => exists t, In (n, t) (ap_sw a) /\ k = soft t end.
Proof.
  intros F. destruct F as [|n ar F|n t F|n t F]; [auto|right..]; do 2 eexists.
  - split; [now apply T_idle|reflexivity].
  - split; [now apply T_hw|reflexivity].
  - split; [now apply T_sw|]. exists t. auto.
Qed.
Lemma is_fn_unique n k ar k' ar' : is_fn n k ar -> is_fn n k' ar' -> k = k' /\ ar = ar'.
Proof.
  pose proof (@wf_x _ _ _ _ Hx) as W.
  assert (ND : NoDup (map fst (ap_sw a))). { pose proof (wf_names W) as N. inversion N as [|? ? _ N']; subst. apply NoDup_app_inv in N' as (_ & N' & _). now apply NoDup_app_inv in N' as (_ & N' & _). }
  intros F F'. apply fn_kind in F as [(-> & -> & ->)|(K & p & T & F)], F' as [(E & -> & ->)|(K' & p' & T' & F')].
  - auto.
  - destruct (init_not_task W T').
  - subst n. destruct (init_not_task W T).
  - destruct (task_names_unique W T T') as (<- & <- & <-). split; [|reflexivity]. destruct K; [congruence..|]. destruct F as (t & I & ->), F' as (t' & I' & ->).
    pose proof (in_iget _ _ _ ND I) as A. pose proof (in_iget _ _ _ ND I') as B. rewrite A in B. injection B as ->. auto.
Qed.

(** ** Types *)
Lemma w_shared r s : In (r, s) (ap_shared a) <-> shared_field items r s.
Proof. destruct (@expand_accepted _ _ _ _ Hx) as [a0 A]. rewrite (acc_shared A). symmetry. apply (pd_shared (ac_parsed A)). Qed.
Lemma w_local r t : In (r, t) (ap_local a) <-> local_field items r t.
Proof. destruct (@expand_accepted _ _ _ _ Hx) as [a0 A]. rewrite (acc_local A). symmetry. apply (pd_local (ac_parsed A)). Qed.
Lemma w_decl f r : In (f, r) (declared_locals a) <-> declares items f r.
Proof.
  destruct (@expand_accepted _ _ _ _ Hx) as [a0 A]. split.
  - intros I. apply decl_fn in I as (k & ar & F & I). destruct (fn_kind F) as [(-> & _ & ->)|(K & p & T & _)].
    + right. destruct (pd_init (ac_parsed A)) as (lo & s1 & s2 & J & E). rewrite <- (acc_init A) in J, E. exists lo, s1, s2. split; [exact J|]. rewrite <- E. exact I.
    + left. exists K, p, (a_shared ar), (a_local ar). split; [|exact I]. apply (pd_task (ac_parsed A)). apply (acc_is_task A) in T. destruct ar. exact T.
  - intros [(k & p & sh & lo & T & I)|(lo & s1 & s2 & J & I)].
    + apply (pd_task (ac_parsed A)) in T. apply (acc_is_task A) in T. inversion T as [m ar E|m t E|m t E]; subst.
      * eapply (@decl_has _ _ _ _ (Fn_idle E)). exact I.
      * eapply (@decl_has _ _ _ _ (Fn_hw _ _ E)). replace (hw_args t) with (mkArgs sh lo). exact I.
      * eapply (@decl_has _ _ _ _ (Fn_sw _ _ E)). replace (sw_args t) with (mkArgs sh lo). exact I.
    + destruct (pd_init_only (ac_parsed A) _ _ _ _ J) as [-> E]. rewrite <- (acc_init A) in *. eapply (@decl_has _ _ _ _ Fn_init). cbn. rewrite <- E. exact I.
Qed.
Lemma w_input n t : In (n, t) (ap_sw a) <-> exists r, In (ITask n r) items /\ rt_binds r = None /\ t = sw_of r.
Proof. destruct (@expand_accepted _ _ _ _ Hx) as [a0 A]. rewrite (acc_sw A). apply (pd_sw (ac_parsed A)). Qed.
Lemma written_input n t T : In (n, t) (ap_sw a) -> on (CTask n) = true -> In T (sw_inputs t) -> written items dty on T.
Proof. intros I C J. apply w_input in I as (r & I & B & ->). cbn in J. eapply W_input; eauto. Qed.
Lemma written_local n k ar l T : is_fn n k ar -> In l (a_local ar) -> holds on (lr_cond n l) = true -> In T (lr_ty x dty n l) -> written items dty on T.
Proof.
  intros F I C J. destruct l as [r d]. unfold lr_cond, lr_ty in *. cbn [fst snd] in *. destruct d; apply one in C.
  - unfold lo_ty in J. destruct (iget (ap_local a) r) as [t|] eqn:E; [|destruct J]. destruct J as [<-|[]]. apply iget_in in E. apply w_local in E. now apply W_local with r.
  - destruct J as [<-|[]]. apply W_decl; [|exact C]. apply w_decl. eapply decl_has; eauto.
Qed.
Theorem types T : mentioned comp T <-> written items dty on T \/ In T (y_send (x_ana x)) \/ In T (y_sync (x_ana x)).
Proof.
  rewrite comp_types. split.
  - intros (g & p & I & C & J & Q & D).
    destruct I as [g I|  | |n k ar g F I|n t I|r s' I|r s' g I I'|N|r t I|h r I|n t I|ch I|].
    + exfalso. unfold fixed_items in I. cbn in I. destruct I as [<-|[<-|I]]; [destruct J..|]. destruct b; [destruct I..|]. destruct I as [<-|[<-|[]]]; destruct J.
    + left. apply in_map_iff in J as ([r s] & <- & J). cbn in Q, D. apply one in Q. destruct D as [<-|[]]. apply w_shared in J. now apply W_shared with r.
    + left. apply in_map_iff in J as ([r s] & <- & J). cbn in Q, D. apply one in Q. destruct D as [<-|[]]. apply w_local in J. now apply W_local with r.
    + left. unfold fn_items, res_items, module in I. repeat rewrite in_app_iff in I. destruct I as [[I|I]|[[I|[I|[<-|[]]]]|I]].
      * assert (I' : In g [local_struct x dty n (a_local ar); local_ctor n (a_local ar)]) by (destruct (a_local ar); [destruct I|exact I]). clear I. destruct I' as [<-|[<-|[]]]; cbn in J.
        -- apply in_app_iff in J as [J|[<-|[]]]; [|destruct D]. apply in_map_iff in J as (l & <- & J). eapply written_local; eauto.
        -- destruct J as [<-|J]; [destruct D|]. apply in_app_iff in J as [J|[<-|[]]]; [|destruct D]. apply in_map_iff in J as (l & <- & J). destruct D.
      * assert (I' : In g [shared_struct x n (a_shared ar); shared_ctor x n (a_shared ar)]) by (destruct (a_shared ar); [destruct I|exact I]). clear I. destruct I' as [<-|[<-|[]]]; cbn in J.
        -- apply in_app_iff in J as [J|[<-|[]]]; [|destruct D]. apply in_map_iff in J as ([r ac] & <- & J). unfold sr_field in *. cbn [fst snd] in *. destruct (_ || _); cbn in Q, D; [|destruct D]. apply one in Q. unfold sh_ty in D.
           destruct (iget (ap_shared a) r) as [s|] eqn:E; [|destruct D]. destruct D as [<-|[]]. apply iget_in in E. apply w_shared in E. now apply W_shared with r.
        -- destruct J as [<-|J]; [destruct D|]. apply in_app_iff in J as [J|[<-|[]]]; [|destruct D]. apply in_map_iff in J as ([r ac] & <- & J). unfold sr_value in D. destruct (_ || _); destruct D.
      * destruct F as [|n ar F|n t F|n t F]; [destruct I..|]. unfold soft in I. apply in_app_iff in I as [I|I].
        -- destruct I as [<-|[<-|[]]]; cbn in C, J; destruct J as [<-|[]]; [|destruct D]. rewrite andb_true_r in C. eapply written_input; eauto.
        -- unfold spawner_items in I. destruct (locals_at x (sw_prio t)) as [|u l] eqn:E; [destruct I|]. destruct I as [<-|[<-|[]]]; [destruct J|]. cbn [g_body] in J. destruct J as [<-|J]; [destruct D|].
           rewrite <- E in J. apply in_map_iff in J as ([n' t'] & <- & J). cbn in Q, D. apply one in Q. unfold locals_at in J. apply filter_In in J as [J _]. eapply written_input; eauto.
      * exfalso. destruct I as [<-|[<-|[]]]; cbn in J; destruct J as [<-|J]; try destruct D.
        -- unfold ctx_fields in J. repeat rewrite in_app_iff in J. destruct J as [J|[J|[J|J]]].
           ++ apply in_map_iff in J as (h & <- & J). destruct D.
           ++ destruct (a_local ar); [destruct J|]. destruct J as [<-|[]]. destruct D.
           ++ destruct (a_shared ar); [destruct J|]. destruct J as [<-|[]]. destruct D.
           ++ destruct (has_spawner x k); [|destruct J]. destruct J as [<-|[]]. destruct D.
        -- unfold ctx_values in J. repeat rewrite in_app_iff in J. destruct J as [J|[J|[J|J]]].
           ++ apply in_map_iff in J as (h & <- & J). destruct D.
           ++ destruct (a_local ar); [destruct J|]. destruct J as [<-|[]]. destruct D.
           ++ destruct (a_shared ar); [destruct J|]. destruct J as [<-|[]]. destruct D.
           ++ destruct (has_spawner x k); [|destruct J]. destruct J as [<-|[]]. destruct D.
      * exfalso. cbn in J. repeat rewrite in_app_iff in J. destruct J as [J|[J|[J|[<-|[]]]]]; [..|destruct D].
        -- destruct (a_local ar); [destruct J|]. destruct J as [<-|[]]. destruct D.
        -- destruct (a_shared ar); [destruct J|]. destruct J as [<-|[]]. destruct D.
        -- destruct k; [destruct J..|]. apply in_app_iff in J as [J|[<-|[]]]; [|destruct D]. destruct local_task; [destruct J|]. destruct J as [<-|[]]. destruct D.
      * unfold fn_item in I. destruct (ext n); [destruct I|]. destruct I as [<-|[]]. cbn in C, J. destruct J as [<-|[]]. cbn in D. destruct F as [|n ar F|n t F|n t F]; [destruct D..|]. unfold soft in *. cbn in C. rewrite andb_true_r in C. eapply written_input; eauto.
    + destruct J as [<-|[]]. destruct D.
    + left. cbn in C, J. destruct J as [<-|[]]. cbn in D. rewrite andb_true_r in C. destruct D as [<-|[]]. apply w_shared in I. now apply W_shared with r.
    + left. unfold mutex_item in I'. destruct (sr_lock_free _); [destruct I'|]. destruct I' as [<-|[]]. cbn in C, J. destruct J as [<-|[]]. cbn in D. rewrite andb_true_r in C. destruct D as [<-|[]]. apply w_shared in I. now apply W_shared with r.
    + exfalso. cbn in J. apply in_flat_map in J as ([r s'] & I & J). unfold proxy_pieces in J. destruct (sr_lock_free _); [destruct J|]. destruct J as [<-|[<-|[]]]; destruct D.
    + left. cbn in C, J. destruct J as [<-|[]]. cbn in D. rewrite andb_true_r in C. destruct D as [<-|[]]. apply w_local in I. now apply W_local with r.
    + left. cbn in C, J. destruct J as [<-|[]]. cbn in D. rewrite andb_true_r in C. destruct D as [<-|[]]. apply w_decl in I. now apply W_decl.
    + destruct J as [<-|[]]. destruct D.
    + cbn in J. apply in_map_iff in J as (n & <- & J). destruct D.
    + right. unfold main_item in J. cbn [g_body] in J. repeat rewrite in_app_iff in J. destruct J as [[<-|[]]|[J|[[<-|[]]|[J|[<-|[]]]]]]; [|exfalso..].
      * cbn in D. now apply in_app_iff.
      * destruct (to_configure a (x_ints x)); [destruct J|]. destruct J as [<-|[]]. destruct D.
      * destruct D.
      * unfold post_init in J. apply in_app_iff in J as [J|J]; apply in_map_iff in J as (r & <- & J); destruct D.
      * destruct D.
  - intros [W|S].
    + destruct W as [r s W C|r t W C|f r W C|n raw t W B J C].
      * apply w_shared in W. exists (shared_static_item (r, s)). eexists. split; [now apply It_static|]. split; [cbn; now rewrite C|]. split; [left; reflexivity|]. split; [reflexivity|now left].
      * apply w_local in W. do 2 eexists. split; [apply (It_lstatic _ _ W)|]. split; [cbn; now rewrite C|]. split; [left; reflexivity|]. split; [reflexivity|now left].
      * apply w_decl in W. do 2 eexists. split; [apply (It_dstatic _ _ W)|]. split; [cbn; now rewrite C|]. split; [left; reflexivity|]. split; [reflexivity|now left].
      * assert (I : In (n, sw_of raw) (ap_sw a)) by (apply w_input; eauto).
        exists (mkG [CTask n] [NV (task_ident n "spawn")] None [mkPc [] [] (user_fn ext n ++ NV (task_ident n "EXEC") :: context_of n) (sw_inputs (sw_of raw))]). eexists.
        split; [eapply It_fn; [exact (Fn_sw _ _ I)|apply in_soft; left; reflexivity]|]. split; [cbn; now rewrite C|]. split; [left; reflexivity|]. split; [reflexivity|exact J].
    + exists (main_item b x sn ln ext). eexists. split; [apply It_main|]. split; [reflexivity|]. split; [unfold main_item; cbn [g_body]; apply in_app_iff; left; left; reflexivity|]. split; [reflexivity|]. cbn. now apply in_app_iff.
Qed.
(** ** Struct literals *)
Context (Hsn : ~ is_internal sn) (Hln : ~ is_internal ln).
Lemma comp_defined c : defined comp c <-> exists g, is_item g /\ holds on (g_if g) = true /\ (In c (g_def g) \/ exists p, In p (g_body g) /\ holds on (pc_if p) = true /\ In c (pc_def p)).
Proof.
  split.
  - intros (g & I & D). apply comp_in in I as (g0 & I & C & ->). exists g0. split; [exact I|]. split; [exact C|]. unfold defs in D. cbn in D. apply in_app_iff in D as [D|D]; [auto|].
    apply in_flat_map in D as (p & J & D). unfold kept_body in J. apply filter_In in J as [J Q]. right. eauto.
  - intros (g & I & C & [D|(p & J & Q & D)]); [eapply comp_def|eapply comp_piece]; eauto.
Qed.
Lemma res_field n ar g s f p : In g (res_items x dty n ar) -> In p (g_body g) -> holds on (pc_if p) = true -> In (NF s f) (pc_def p) ->
  (s = NT (local_ident n) /\ a_local ar <> [] /\ (f = "__rtic_internal_marker"%string \/ exists d, In (f, d) (a_local ar) /\ holds on (lr_cond n (f, d)) = true)) \/
  (s = NT (shared_ident n) /\ a_shared ar <> [] /\ (f = "__rtic_internal_marker"%string \/ exists ac, In (f, ac) (a_shared ar) /\ on (CShared f) = true)).
Proof.
  intros I J Q D. unfold res_items in I. apply in_app_iff in I as [I|I].
  - left. assert (N : a_local ar <> []) by (intros E; rewrite E in I; destruct I).
    assert (I' : In g [local_struct x dty n (a_local ar); local_ctor n (a_local ar)]) by (destruct (a_local ar); [destruct I|exact I]). clear I. destruct I' as [<-|[<-|[]]]; cbn in J.
    + apply in_app_iff in J as [J|[<-|[]]].
      * apply in_map_iff in J as ([r d] & <- & J). cbn [pc_if pc_def fst] in Q, D. destruct D as [[= <- <-]|[]]. split; [reflexivity|]. split; [exact N|]. right. eauto.
      * destruct D as [[= <- <-]|[]]. auto.
    + destruct J as [<-|J]; [destruct D|]. apply in_app_iff in J as [J|[<-|[]]]; [|destruct D]. apply in_map_iff in J as (l & <- & J). destruct D.
  - right. assert (N : a_shared ar <> []) by (intros E; rewrite E in I; destruct I).
    assert (I' : In g [shared_struct x n (a_shared ar); shared_ctor x n (a_shared ar)]) by (destruct (a_shared ar); [destruct I|exact I]). clear I. destruct I' as [<-|[<-|[]]]; cbn in J.
    + apply in_app_iff in J as [J|[<-|[]]].
      * apply in_map_iff in J as ([r ac] & <- & J). unfold sr_field in *. cbn [fst snd] in *. destruct (_ || _); cbn [pc_if pc_def] in *; apply one in Q; destruct D as [[= <- <-]|[]]; (split; [reflexivity|]; split; [exact N|]; right; eauto).
      * destruct D as [[= <- <-]|[]]. auto.
    + destruct J as [<-|J]; [destruct D|]. apply in_app_iff in J as [J|[<-|[]]]; [|destruct D]. apply in_map_iff in J as ([r ac] & <- & J). unfold sr_value in D. destruct (_ || _); destruct D.
Qed.
Lemma module_field n k ar g s f p : is_fn n k ar -> In g (module x ext core periph n k ar) -> holds on (g_if g) = true -> In p (g_body g) -> In (NF s f) (pc_def p) ->
  s = ctx_name n /\ (f = "__rtic_internal_p"%string \/ exists p, In p (ctx_fields x core periph n k ar) /\ In (NF s f) (pc_def p)).
Proof.
  intros F I C J D. unfold module in I. repeat rewrite in_app_iff in I. destruct I as [I|[I|[<-|[]]]].
  - exfalso. destruct F as [|n ar F|n t F|n t F]; [destruct I..|]. unfold soft in I. apply in_app_iff in I as [I|I].
    + destruct I as [<-|[<-|[]]]; cbn in J; destruct J as [<-|[]]; destruct D.
    + unfold spawner_items in I. destruct (locals_at x (sw_prio t)) as [|u l] eqn:E; [destruct I|]. destruct I as [<-|[<-|[]]]; [destruct J|]. cbn [g_body] in J. destruct J as [<-|J]; [destruct D|].
      rewrite <- E in J. apply in_map_iff in J as ([n' t'] & <- & J). cbn in D. destruct D as [D|[]]. discriminate.
  - destruct I as [<-|[<-|[]]]; cbn in J.
    + destruct J as [<-|J]; [destruct D as [[= <- <-]|[]]; auto|]. assert (E : s = ctx_name n).
      { unfold ctx_fields in J. repeat rewrite in_app_iff in J. destruct J as [J|[J|[J|J]]].
        - apply in_map_iff in J as (h & <- & J). destruct D as [[= <- <-]|[]]. reflexivity.
        - destruct (a_local ar); [destruct J|]. destruct J as [<-|[]]. destruct D as [[= <- <-]|[]]. reflexivity.
        - destruct (a_shared ar); [destruct J|]. destruct J as [<-|[]]. destruct D as [[= <- <-]|[]]. reflexivity.
        - destruct (has_spawner x k); [|destruct J]. destruct J as [<-|[]]. destruct D as [[= <- <-]|[]]. reflexivity. }
      split; [exact E|]. right. eauto.
    + exfalso. destruct J as [<-|J]; [destruct D|]. unfold ctx_values in J. repeat rewrite in_app_iff in J. destruct J as [J|[J|[J|J]]].
      * apply in_map_iff in J as (h & <- & J). destruct D.
      * destruct (a_local ar); [destruct J|]. destruct J as [<-|[]]. destruct D.
      * destruct (a_shared ar); [destruct J|]. destruct J as [<-|[]]. destruct D.
      * destruct (has_spawner x k); [|destruct J]. destruct J as [<-|[]]. destruct D.
  - exfalso. cbn in J. repeat rewrite in_app_iff in J. destruct J as [J|[J|[J|[<-|[]]]]].
    + destruct (a_local ar); [destruct J|]. destruct J as [<-|[]]. destruct D as [D|[]]. discriminate.
    + destruct (a_shared ar); [destruct J|]. destruct J as [<-|[]]. destruct D as [D|[]]. discriminate.
    + destruct F as [|n ar F|n t F|n t F]; [destruct J..|]. unfold soft in J. apply in_app_iff in J as [J|[<-|[]]].
      * destruct (sw_local_task t); [destruct J|]. destruct J as [<-|[]]. destruct D as [D|[]]. discriminate.
      * destruct D as [D|[]]. discriminate.
    + destruct D as [D|[]]. discriminate.
Qed.
Lemma field_def s f : defined comp (NF s f) -> s = NT sn \/ s = NT ln \/ exists n k ar, is_fn n k ar /\
  ((s = NT (local_ident n) /\ a_local ar <> [] /\ (f = "__rtic_internal_marker"%string \/ exists d, In (f, d) (a_local ar) /\ holds on (lr_cond n (f, d)) = true)) \/
   (s = NT (shared_ident n) /\ a_shared ar <> [] /\ (f = "__rtic_internal_marker"%string \/ exists ac, In (f, ac) (a_shared ar) /\ on (CShared f) = true)) \/
   (s = ctx_name n /\ (f = "__rtic_internal_p"%string \/ exists p, In p (ctx_fields x core periph n k ar) /\ In (NF s f) (pc_def p)))).
Proof.
  intros D. apply comp_defined in D as (g & I & C & D).
  destruct I as [g I|  | |n k ar g F I|n t I|r s' I|r s' g I I'|N|r t I|h r I|n t I|ch I|].
  - exfalso. unfold fixed_items in I. assert (E : g_body g = [] /\ exists c, g_def g = [c] /\ (forall z w, c <> NF z w)).
    { cbn in I. destruct I as [<-|[<-|I]]; [split; [reflexivity|eexists; split; [reflexivity|discriminate]]..|]. destruct b; [destruct I..|]. destruct I as [<-|[<-|[]]]; (split; [reflexivity|eexists; split; [reflexivity|discriminate]]). }
    destruct E as (E & c & Ec & N). rewrite E, Ec in D. destruct D as [[D|[]]|(p & [] & _)]. exact (N _ _ D).
  - left. destruct D as [[D|[]]|(p & J & _ & D)]; [discriminate|]. cbn in J. apply in_map_iff in J as (r & <- & J). destruct D as [[= <- <-]|[]]. reflexivity.
  - right. left. destruct D as [[D|[]]|(p & J & _ & D)]; [discriminate|]. cbn in J. apply in_map_iff in J as (r & <- & J). destruct D as [[= <- <-]|[]]. reflexivity.
  - right. right. exists n, k, ar. split; [exact F|]. assert (ND : ~ In (NF s f) (g_def g)).
    { clear D. unfold fn_items, res_items, module in I. repeat rewrite in_app_iff in I. destruct I as [[I|I]|[[I|[I|[<-|[]]]]|I]].
      - destruct (a_local ar); [destruct I|]. destruct I as [<-|[<-|[]]]; cbn; intros [E|[]]; discriminate.
      - destruct (a_shared ar); [destruct I|]. destruct I as [<-|[<-|[]]]; cbn; intros [E|[]]; discriminate.
      - destruct F as [|n ar F|n t F|n t F]; [destruct I..|]. unfold soft in I. apply in_app_iff in I as [I|I]; [destruct I as [<-|[<-|[]]]; cbn; intros [E|[]]; discriminate|].
        unfold spawner_items in I. destruct (locals_at x (sw_prio t)); [destruct I|]. destruct I as [<-|[<-|[]]]; cbn; [intros [E|[]]; discriminate|auto].
      - destruct I as [<-|[<-|[]]]; cbn; intros [E|[]]; discriminate.
      - cbn. intros [E|[]]; discriminate.
      - unfold fn_item in I. destruct (ext n); [destruct I|]. destruct I as [<-|[]]; cbn; intros [E|[]]; discriminate. }
    destruct D as [D|(p & J & Q & D)]; [contradiction|]. unfold fn_items in I. repeat rewrite in_app_iff in I. destruct I as [I|[I|I]].
    + destruct (res_field _ _ _ _ _ _ I J Q D) as [R|R]; auto.
    + right. right. eapply module_field; eauto.
    + exfalso. unfold fn_item in I. destruct (ext n); [destruct I|]. destruct I as [<-|[]]. cbn in J. destruct J as [<-|[]]. destruct D.
  - exfalso. destruct D as [[D|[]]|(p & [<-|[]] & _ & [])]. discriminate.
  - exfalso. destruct D as [[D|[]]|(p & [<-|[]] & _ & [])]. discriminate.
  - exfalso. unfold mutex_item in I'. destruct (sr_lock_free _); [destruct I'|]. destruct I' as [<-|[]]. destruct D as [[D|[]]|(p & [<-|[]] & _ & [])]. discriminate.
  - exfalso. destruct D as [[D|[]]|(p & J & _ & D)]; [discriminate|]. cbn in J. apply in_flat_map in J as ([r s'] & I & J). unfold proxy_pieces in J. destruct (sr_lock_free _); [destruct J|].
    destruct J as [<-|[<-|[]]]; destruct D as [D|[]]; discriminate.
  - exfalso. destruct D as [[D|[]]|(p & [<-|[]] & _ & [])]. discriminate.
  - exfalso. destruct D as [[D|[]]|(p & [<-|[]] & _ & [])]. discriminate.
  - exfalso. destruct D as [[D|[]]|(p & [<-|[]] & _ & [])]. discriminate.
  - exfalso. destruct D as [[D|[]]|(p & J & _ & D)]; [discriminate|]. cbn in J. apply in_map_iff in J as (n & <- & J). destruct D.
  - exfalso. destruct D as [[D|[]]|(p & J & _ & D)]; [discriminate|]. unfold main_item in J. cbn [g_body] in J. repeat rewrite in_app_iff in J. destruct J as [[<-|[]]|[J|[[<-|[]]|[J|[<-|[]]]]]]; [destruct D|..].
    + destruct (to_configure a (x_ints x)); [destruct J|]. destruct J as [<-|[]]. destruct D.
    + destruct D.
    + unfold post_init in J. apply in_app_iff in J as [J|J]; apply in_map_iff in J as (r & <- & J); destruct D.
    + destruct D.
Qed.
Definition ctx_ctor n k ar := mkG (ctx_cond n k) [NA (ctx_name n) "new"] (Some (ctx_name n)) (uses [ctx_name n; NF (ctx_name n) "__rtic_internal_p"] :: ctx_values x core periph n k ar).
Lemma make_cases g s : is_item g -> g_make g = Some s -> exists n k ar, is_fn n k ar /\
  ((g = local_ctor n (a_local ar) /\ s = NT (local_ident n)) \/ (g = shared_ctor x n (a_shared ar) /\ s = NT (shared_ident n)) \/ (g = ctx_ctor n k ar /\ s = ctx_name n)).
Proof.
  intros I M. destruct I as [g I|  | |n k ar g F I|n t I|r s' I|r s' g I I'|N|r t I|h r I|n t I|ch I|]; try discriminate.
  - exfalso. unfold fixed_items in I. cbn in I. destruct I as [<-|[<-|I]]; [discriminate..|]. destruct b; [destruct I..|]. destruct I as [<-|[<-|[]]]; discriminate.
  - exists n, k, ar. split; [exact F|]. unfold fn_items, res_items, module in I. repeat rewrite in_app_iff in I. destruct I as [[I|I]|[[I|[I|[<-|[]]]]|I]].
    + left. destruct (a_local ar); [destruct I|]. destruct I as [<-|[<-|[]]]; [discriminate|]. injection M as <-. auto.
    + right. left. destruct (a_shared ar); [destruct I|]. destruct I as [<-|[<-|[]]]; [discriminate|]. injection M as <-. auto.
    + exfalso. destruct F as [|n ar F|n t F|n t F]; [destruct I..|]. unfold soft in I. apply in_app_iff in I as [I|I]; [destruct I as [<-|[<-|[]]]; discriminate|].
      unfold spawner_items in I. destruct (locals_at x (sw_prio t)); [destruct I|]. destruct I as [<-|[<-|[]]]; discriminate.
    + right. right. destruct I as [<-|[<-|[]]]; [discriminate|]. injection M as <-. auto.
    + discriminate.
    + exfalso. unfold fn_item in I. destruct (ext n); [destruct I|]. destruct I as [<-|[]]; discriminate.
  - exfalso. unfold mutex_item in I'. destruct (sr_lock_free _); [destruct I'|]. destruct I' as [<-|[]]. discriminate.
Qed.
Lemma not_user n s : s = NT (internal n) -> s <> NT sn /\ s <> NT ln.
Proof. intros ->. split; intros [= E]; [apply Hsn|apply Hln]; exists n; exact (eq_sym E). Qed.
Lemma in_kept g p c : In p (g_body g) -> holds on (pc_if p) = true -> In c (pc_use p) -> In c (uses_of (mkG [] (g_def g) (g_make g) (kept_body on g))).
Proof. intros I C U. unfold uses_of. cbn. apply in_flat_map. exists p. split; [|exact U]. unfold kept_body. now apply filter_In. Qed.
Theorem literals : literals_complete comp.
Proof.
  intros g s f I M D. apply comp_in in I as (g0 & I & C & ->). cbn in M. destruct (make_cases I M) as (n & k & ar & F & Q).
  assert (U : s <> NT sn /\ s <> NT ln). { destruct Q as [[_ E]|[[_ E]|[_ E]]]; eapply not_user; exact E. } destruct U as [U1 U2].
  destruct (field_def D) as [E|[E|(n' & k' & ar' & F' & Q')]]; [contradiction..|].
  destruct Q as [[-> E]|[[-> E]|[-> E]]]; destruct Q' as [[E' Q']|[[E' Q']|[E' Q']]]; subst s; injection E' as E'.
  - apply append_tail in E' as [<- _]; [|reflexivity]. destruct (is_fn_unique F F') as [<- <-]. destruct Q' as [_ [-> |(d & J & Q')]].
    + eapply in_kept; [cbn; right; apply in_app_iff; right; now left|reflexivity|now left].
    + eapply in_kept; [cbn; right; apply in_app_iff; left; apply in_map_iff; exists (f, d); split; [reflexivity|exact J]|exact Q'|now left].
  - destruct (@local_shared_ident n n'). first [exact (f_equal internal E')|exact (eq_sym (f_equal internal E'))].
  - destruct (@local_context_ident n n'). first [exact (f_equal internal E')|exact (eq_sym (f_equal internal E'))].
  - destruct (@local_shared_ident n' n). first [exact (f_equal internal E')|exact (eq_sym (f_equal internal E'))].
  - apply append_tail in E' as [<- _]; [|reflexivity]. destruct (is_fn_unique F F') as [<- <-]. destruct Q' as [_ [-> |(ac & J & Q')]].
    + eapply in_kept; [cbn; right; apply in_app_iff; right; now left|reflexivity|now left].
    + eapply in_kept with (p := sr_value x n (f, ac)); [cbn; right; apply in_app_iff; left; apply in_map_iff; now exists (f, ac)| |]; unfold sr_value; destruct (_ || _); cbn; rewrite ?Q'; auto.
  - destruct (@shared_context_ident n n'). first [exact (f_equal internal E')|exact (eq_sym (f_equal internal E'))].
  - destruct (@local_context_ident n' n). first [exact (f_equal internal E')|exact (eq_sym (f_equal internal E'))].
  - destruct (@shared_context_ident n' n). first [exact (f_equal internal E')|exact (eq_sym (f_equal internal E'))].
  - apply append_tail in E' as [<- _]; [|reflexivity]. destruct (is_fn_unique F F') as [<- <-]. destruct Q' as [-> |(p & J & Q')].
    + eapply in_kept; [cbn; left; reflexivity|reflexivity|cbn; auto].
    + unfold ctx_fields in J. repeat rewrite in_app_iff in J. destruct J as [J|[J|[J|J]]].
      * apply in_map_iff in J as (h & <- & J). destruct Q' as [[= <-]|[]]. eapply in_kept; [cbn; right; unfold ctx_values; apply in_app_iff; left; apply in_map_iff; exists h; split; [reflexivity|exact J]|reflexivity|now left].
      * destruct (a_local ar) as [|l0 l] eqn:EL; [destruct J|]. destruct J as [<-|[]]. destruct Q' as [[= <-]|[]]. eapply in_kept with (p := uses _); [cbn; right; unfold ctx_values; rewrite EL; repeat rewrite in_app_iff; right; left; left; reflexivity|reflexivity|now left].
      * destruct (a_shared ar) as [|l0 l] eqn:EL; [destruct J|]. destruct J as [<-|[]]. destruct Q' as [[= <-]|[]]. eapply in_kept with (p := uses _); [cbn; right; unfold ctx_values; rewrite EL; repeat rewrite in_app_iff; do 2 right; left; left; reflexivity|reflexivity|now left].
      * destruct (has_spawner x k) eqn:EL; [|destruct J]. destruct J as [<-|[]]. destruct Q' as [[= <-]|[]]. eapply in_kept with (p := uses _); [cbn; right; unfold ctx_values; rewrite EL; repeat rewrite in_app_iff; do 3 right; left; reflexivity|reflexivity|now left].
Qed.
(** ** Names resolve *)
Context (Hinit : on CInit = true) (Hidle : on CIdle = true).
Lemma fn_on n k ar : is_fn n k ar -> holds on (ctx_cond n k) = true -> holds on (fn_cond n k) = true.
Proof. intros F. destruct k; cbn; auto; now rewrite ?Hinit, ?Hidle. Qed.
Lemma r_res n k ar : is_fn n k ar -> forall g p c, In g (res_items x dty n ar) -> In p (g_body g) -> holds on (pc_if p) = true -> In c (pc_use p) -> defined comp c.
Proof.
  intros F g p c I J D U. unfold res_items in I. apply in_app_iff in I as [I|I].
  - assert (N : a_local ar <> []) by (intros E; rewrite E in I; destruct I).
    assert (I' : In g [local_struct x dty n (a_local ar); local_ctor n (a_local ar)]) by (destruct (a_local ar); [destruct I|exact I]). clear I. destruct I' as [<-|[<-|[]]]; cbn in J.
    + apply in_app_iff in J as [J|[<-|[]]]; [|destruct U]. apply in_map_iff in J as (l & <- & J). destruct U.
    + destruct J as [<-|J]; [destruct U as [<-|[]]; now apply d_lo with k ar|]. apply in_app_iff in J as [J|[<-|[]]].
      * apply in_map_iff in J as ([r d] & <- & J). cbn in D, U. destruct U as [<-|[<-|[]]].
        -- eapply (@d_lo_field _ _ _ F (mkPc (lr_cond n (r, d)) [NF (NT (local_ident n)) r] [] (lr_ty x dty n (r, d)))); [exact N| |exact D|now left]. cbn. apply in_app_iff. left. apply in_map_iff. now exists (r, d).
        -- unfold lr_static, lr_cond in *. destruct d; cbn [fst snd] in *; apply one in D.
           ++ destruct (@local_has _ _ _ _ F J) as [t T]. now apply d_lstatic with t.
           ++ apply d_dstatic; [|exact D]. eapply decl_has; eauto.
      * destruct U as [<-|[]]. eapply (@d_lo_field _ _ _ F (mkPc [] [NF (NT (local_ident n)) "__rtic_internal_marker"] [] [])); [exact N| |reflexivity|now left]. cbn. apply in_app_iff. right. now left.
  - assert (N : a_shared ar <> []) by (intros E; rewrite E in I; destruct I).
    assert (I' : In g [shared_struct x n (a_shared ar); shared_ctor x n (a_shared ar)]) by (destruct (a_shared ar); [destruct I|exact I]). clear I. destruct I' as [<-|[<-|[]]]; cbn in J.
    + apply in_app_iff in J as [J|[<-|[]]]; [|destruct U]. apply in_map_iff in J as ([r ac] & <- & J). destruct (@shared_has _ _ _ _ _ F J) as [s S]. unfold sr_field in *. cbn [fst snd] in *. rewrite (@lock_free_s _ _ S) in *.
      destruct (sr_lock_free s) eqn:L; cbn [orb] in *; [destruct U|]. destruct ac; cbn [negb is_excl pc_use pc_if] in *; [|destruct U]. apply one in D. eapply d_proxy; [exact S|exact L|exact D|]. destruct U as [<-|[<-|[]]]; cbn; auto.
    + destruct J as [<-|J]; [destruct U as [<-|[]]; now apply d_sh with k ar|]. apply in_app_iff in J as [J|[<-|[]]].
      * apply in_map_iff in J as ([r ac] & <- & J). destruct (@shared_has _ _ _ _ _ F J) as [s S].
        assert (Ff : on (CShared r) = true -> defined comp (NF (NT (shared_ident n)) r)).
        { intros C. eapply (@d_sh_field _ _ _ F (sr_field x n (r, ac))); [exact N|cbn; apply in_app_iff; left; apply in_map_iff; now exists (r, ac)|unfold sr_field; destruct (_ || _); cbn; now rewrite C|unfold sr_field; destruct (_ || _); now left]. }
        unfold sr_value in *. cbn [fst snd] in *. rewrite (@lock_free_s _ _ S) in *. destruct (sr_lock_free s || _) eqn:L; cbn [pc_use pc_if] in *; apply one in D.
        -- destruct U as [<-|[<-|[]]]; [auto|now apply d_sstatic with s].
        -- apply orb_false_iff in L as [L _]. destruct U as [<-|U]; [auto|]. eapply d_proxy; eauto.
      * destruct U as [<-|[]]. eapply (@d_sh_field _ _ _ F (mkPc [] [NF (NT (shared_ident n)) "__rtic_internal_marker"] [] [])); [exact N| |reflexivity|now left]. cbn. apply in_app_iff. right. now left.
Qed.
Lemma spawner_soft k ar n : is_fn n k ar -> has_spawner x k = true -> exists t, In (n, t) (ap_sw a) /\ k = soft t /\ ar = sw_args t /\ locals_at x (sw_prio t) <> [].
Proof. intros F S. destruct F as [|n ar F|n t F|n t F]; try discriminate. exists t. repeat split; auto. unfold soft in S. cbn in S. intros E. now rewrite E in S. Qed.
Lemma r_ctx n k ar : is_fn n k ar -> forall g p c, In g (ctx_items x core periph n k ar) -> holds on (g_if g) = true -> In p (g_body g) -> In c (pc_use p) -> defined comp c.
Proof.
  intros F g p c I C J U. assert (C' : holds on (ctx_cond n k) = true) by (destruct I as [<-|[<-|[]]]; exact C). assert (M : holds on (mod_cond n k) = true) by (clear - C'; destruct k; auto).
  destruct I as [<-|[<-|[]]]; cbn in J; [destruct J as [<-|J]; [destruct U|]|destruct J as [<-|J]; [destruct U as [<-|U]; [now apply d_ctx with k ar|destruct U as [<-|[]]]|]].
  - unfold ctx_fields in J. repeat rewrite in_app_iff in J. destruct J as [J|[J|[J|J]]].
    + apply in_map_iff in J as (f & <- & _). destruct U.
    + destruct (a_local ar) eqn:E; [destruct J|]. assert (N : a_local ar <> []) by congruence. destruct J as [<-|[]]. destruct U as [<-|[<-|[]]]; [now apply d_mod with k ar|now apply d_in_lo with k ar].
    + destruct (a_shared ar) eqn:E; [destruct J|]. assert (N : a_shared ar <> []) by congruence. destruct J as [<-|[]]. destruct U as [<-|[<-|[]]]; [now apply d_mod with k ar|now apply d_in_sh with k ar].
    + destruct (has_spawner x k) eqn:E; [|destruct J]. destruct J as [<-|[]]. destruct U as [<-|[]]. destruct (@spawner_soft _ _ _ F E) as (t & T & _ & _ & N). now apply d_spawner with t.
  - eapply (@d_ctx_field _ _ _ F (mkPc [] [NF (ctx_name n) "__rtic_internal_p"] [] [])); [exact C'|cbn; now left|reflexivity|now left].
  - unfold ctx_values in J. repeat rewrite in_app_iff in J. destruct J as [J|[J|[J|J]]].
    + apply in_map_iff in J as (f & <- & J). destruct U as [<-|[]]. eapply (@d_ctx_field _ _ _ F (mkPc [] [NF (ctx_name n) f] [] [])); [exact C'| |reflexivity|now left]. cbn. right. unfold ctx_fields. apply in_app_iff. left. apply in_map_iff. now exists f.
    + destruct (a_local ar) eqn:E; [destruct J|]. assert (N : a_local ar <> []) by congruence. destruct J as [<-|[]]. destruct U as [<-|[<-|[<-|[<-|[]]]]]; [|now apply d_mod with k ar|now apply d_in_lo with k ar|now apply d_lo_new with k ar].
      eapply (@d_ctx_field _ _ _ F (mkPc [] [NF (ctx_name n) "local"] [NT n; NIn n "LocalResources"] [])); [exact C'| |reflexivity|now left]. cbn. right. unfold ctx_fields. repeat rewrite in_app_iff. right. left. rewrite E. now left.
    + destruct (a_shared ar) eqn:E; [destruct J|]. assert (N : a_shared ar <> []) by congruence. destruct J as [<-|[]]. destruct U as [<-|[<-|[<-|[<-|[]]]]]; [|now apply d_mod with k ar|now apply d_in_sh with k ar|now apply d_sh_new with k ar].
      eapply (@d_ctx_field _ _ _ F (mkPc [] [NF (ctx_name n) "shared"] [NT n; NIn n "SharedResources"] [])); [exact C'| |reflexivity|now left]. cbn. right. unfold ctx_fields. repeat rewrite in_app_iff. right. right. left. rewrite E. now left.
    + destruct (has_spawner x k) eqn:E; [|destruct J]. destruct J as [<-|[]]. destruct U as [<-|[<-|[]]]; [|destruct (@spawner_soft _ _ _ F E) as (t & T & _ & _ & N); now apply d_spawner with t].
      eapply (@d_ctx_field _ _ _ F (mkPc [] [NF (ctx_name n) "local_spawner"] [NT (task_ident n "LocalSpawner")] [])); [exact C'| |reflexivity|now left]. cbn. right. unfold ctx_fields. repeat rewrite in_app_iff. do 3 right. rewrite E. now left.
Qed.
Lemma fn_sw_on n t c : In (n, t) (ap_sw a) -> on (CTask n) = true -> In c (user_fn ext n) -> defined comp c.
Proof. intros I C U. eapply (@d_fn _ _ _ (Fn_sw _ _ I)); [|exact U]. cbn. now rewrite C. Qed.
Lemma r_module n k ar : is_fn n k ar -> forall g p c, In g (module x ext core periph n k ar) -> holds on (g_if g) = true -> In p (g_body g) -> holds on (pc_if p) = true -> In c (pc_use p) -> defined comp c.
Proof.
  intros F g p c I C J D U. unfold module in I. repeat rewrite in_app_iff in I. destruct I as [I|[I|[<-|[]]]].
  - destruct F as [|n ar F|n t F|n t F]; [destruct I..|]. unfold soft in I. apply in_app_iff in I as [I|I].
    + destruct I as [<-|[<-|[]]]; cbn in C, J; rewrite andb_true_r in C; destruct J as [<-|[]]; cbn in U; apply in_app_iff in U as [U|U].
      * now apply fn_sw_on with n t.
      * destruct U as [<-|U]; [now apply d_exec with t|]. eapply (@d_context _ _ _ (Fn_sw _ _ F)); [cbn; now rewrite C|exact U].
      * now apply fn_sw_on with n t.
      * destruct U as [<-|[]]. now apply d_exec with t.
    + unfold spawner_items in I. destruct (locals_at x (sw_prio t)) as [|u l] eqn:E; [destruct I|]. assert (N : locals_at x (sw_prio t) <> []) by congruence. destruct I as [<-|[<-|[]]]; [destruct J|]. cbn [g_body] in J. destruct J as [<-|J].
      * destruct U as [<-|[]]. now apply d_spawner with t.
      * rewrite <- E in J. apply in_map_iff in J as ([n' t'] & <- & J). cbn in D, U. destruct U as [<-|[]]. apply one in D. unfold locals_at in J. apply filter_In in J as [J _]. now apply d_spawn with t'.
  - eapply r_ctx; eauto.
  - cbn in C, J. repeat rewrite in_app_iff in J. destruct J as [J|[J|[J|[<-|[]]]]].
    + destruct (a_local ar) eqn:E; [destruct J|]. destruct J as [<-|[]]. destruct U as [<-|[]]. apply d_lo with k ar; [exact F|congruence].
    + destruct (a_shared ar) eqn:E; [destruct J|]. destruct J as [<-|[]]. destruct U as [<-|[]]. apply d_sh with k ar; [exact F|congruence].
    + destruct F as [|n ar F|n t F|n t F]; [destruct J..|]. unfold soft in J. apply in_app_iff in J as [J|[<-|[]]].
      * destruct (sw_local_task t); [destruct J|]. destruct J as [<-|[]]. cbn in D, U. apply one in D. destruct U as [<-|[]]. now apply d_spawn with t.
      * cbn in D, U. apply one in D. destruct U as [<-|[]]. now apply d_waker with t.
    + destruct U as [<-|[]]. now apply d_ctx with k ar.
Qed.
Lemma r_fn n k ar : is_fn n k ar -> forall g p c, In g (fnit n k ar) -> holds on (g_if g) = true -> In p (g_body g) -> holds on (pc_if p) = true -> In c (pc_use p) -> defined comp c.
Proof.
  intros F g p c I C J D U. unfold fn_items in I. repeat rewrite in_app_iff in I. destruct I as [I|[I|I]].
  - eapply r_res; eauto.
  - eapply r_module; eauto.
  - unfold fn_item in I. destruct (ext n); [destruct I|]. destruct I as [<-|[]]. cbn in C, J. destruct J as [<-|[]]. cbn in U.
    assert (M : holds on (ctx_cond n k) = true) by (destruct F; auto).
    destruct U as [<-|[<-|U]]; [eapply d_context; [exact F|exact M|now left]|eapply d_context; [exact F|exact M|right; now left]|].
    destruct F as [|n ar F|n t F|n t F]; [|destruct U..]. destruct U as [<-|[<-|[]]]; [apply d_sn|apply d_ln].
Qed.
Theorem resolve : resolved comp.
Proof.
  intros c U. apply comp_used in U as (g & p & I & C & J & D & U).
  destruct I as [g I|  | |n k ar g F I|n t I|r s I|r s g I I'|N|r t I|f r I|n t I|ch I|].
  - unfold fixed_items in I. cbn in I. destruct I as [<-|[<-|I]]; [destruct J..|]. destruct b; [destruct I..|]. destruct I as [<-|[<-|[]]]; destruct J.
  - apply in_map_iff in J as (r & <- & J). destruct U.
  - apply in_map_iff in J as (r & <- & J). destruct U.
  - eapply r_fn; eauto.
  - destruct J as [<-|[]]. cbn [pc_use uses] in U. apply in_app_iff in U as [U|U]; [eapply (@d_context _ _ _ (Fn_hw _ _ I))|eapply (@d_fn _ _ _ (Fn_hw _ _ I))]; eauto.
  - cbn in J. destruct J as [<-|[]]. destruct U.
  - unfold mutex_item in I'. cbn [snd fst] in I'. destruct (sr_lock_free s) eqn:L; [destruct I'|]. destruct I' as [<-|[]]. cbn in C, J. destruct J as [<-|[]]. cbn in U. rewrite andb_true_r in C.
    destruct U as [<-|[<-|[<-|[]]]]; [eapply d_proxy; eauto; cbn; auto|eapply d_proxy; eauto; cbn; auto|now apply d_sstatic with s].
  - cbn in J. apply in_flat_map in J as ([r s] & I & J). unfold proxy_pieces in J. cbn [snd fst] in J. destruct (sr_lock_free s) eqn:L; [destruct J|].
    destruct J as [<-|[<-|[]]]; cbn in D, U; [destruct U|]. destruct U as [<-|[]]. apply one in D. eapply d_proxy; eauto; cbn; auto.
  - destruct J as [<-|[]]. destruct U.
  - destruct J as [<-|[]]. destruct U.
  - destruct J as [<-|[]]. cbn in C, U. rewrite andb_true_r in C. now apply fn_sw_on with n t.
  - cbn in J. apply in_map_iff in J as (n & <- & J). cbn in D, U. apply one in D. destruct (chan_tasks _ _ I J) as [t T]. apply in_app_iff in U as [U|[<-|[]]]; [now apply fn_sw_on with n t|now apply d_exec with t].
  - unfold main_item in J. cbn [g_body] in J. repeat rewrite in_app_iff in J. destruct J as [[<-|[]]|[J|[[<-|[]]|[J|[<-|[]]]]]]; [destruct U|..].
    + destruct (to_configure a (x_ints x)); [destruct J|]. destruct J as [<-|[]]. destruct U as [<-|[]]. eapply comp_def with (g := mkG [] [NT _] None []); [apply It_fixed|reflexivity|now left]. unfold fixed_items. destruct b; cbn; auto.
    + cbn [uses pc_use] in U. apply in_app_iff in U as [U|U]; [eapply (@d_fn _ _ _ Fn_init); [|exact U]; cbn; now rewrite Hinit|eapply (@d_context _ _ _ Fn_init); [reflexivity|exact U]].
    + unfold post_init in J. apply in_app_iff in J as [J|J]; apply in_map_iff in J as ([r s] & <- & J); apply filter_In in J as [J _]; cbn in D, U; apply one in D; destruct U as [<-|[<-|[]]].
      * now apply d_sstatic with s.
      * now apply d_sfield with s.
      * now apply d_lstatic with s.
      * now apply d_lfield with s.
    + cbn [uses pc_use] in U. unfold call_idle in U. destruct (ap_idle a) as [[n ar]|] eqn:E.
      * apply in_app_iff in U as [U|U]; [eapply (@d_fn _ _ _ (Fn_idle E)); [|exact U]; cbn; now rewrite Hidle|eapply (@d_context _ _ _ (Fn_idle E)); [reflexivity|exact U]].
      * destruct (has_zero x) eqn:Z; [|destruct U]. destruct U as [<-|[]]. unfold has_zero in Z. apply existsb_exists in Z as (ch & I & Z). apply Nat.eqb_eq in Z.
        eapply comp_def with (g := disp_item x ext ch); [now apply It_disp|reflexivity|]. unfold disp_item, disp_name. rewrite Z. now left.
Qed.
End Gen.
