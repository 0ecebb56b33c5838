(** C82: the generated program fits together, whatever [#[cfg]] removes. *)
From Verif Require Import Base AppModel AppSpec AppProofs AppAnalysis AppChecks AppFinal RefModel RefProofs PropertiesApp PropertiesLocal GenModel GenSpec GenProofs.
Set Implicit Arguments.
Open Scope string_scope. Open Scope list_scope. Open Scope nat_scope.

Section C82.
Context (b : bkind) (disp : list ident) (items : list item) (x : expansion) (Hx : expand b disp items = Some x).
Context (sn ln : ident) (ext : ident -> bool) (dty : ident -> ident -> ty) (core periph : bool) (on : cond -> bool).
Notation comp := (compiled b x sn ln ext dty core periph on).

(** Whatever tasks and resources are compiled out: what is left refers to nothing that is gone. *)
Theorem C82_names_resolve_partial : on CInit = true -> on CIdle = true -> resolved comp.
Proof. intros I J. exact (@resolve b disp items x Hx sn ln ext dty core periph on I J). Qed.

(** Whatever is compiled out: constructors give each field that is left a value. *)
Theorem C82_literals_complete : ~ is_internal sn -> ~ is_internal ln -> literals_complete comp.
Proof. intros I J. exact (@literals b disp items x Hx sn ln ext dty core periph on I J). Qed.

(** Types of the user that are mentioned: of what is left, and those checked to be [Send] or [Sync]. *)
Theorem C82_types T : mentioned comp T <-> written items dty on T \/ In T (y_send (x_ana x)) \/ In T (y_sync (x_ana x)).
Proof. exact (@types b disp items x Hx sn ln ext dty core periph on T). Qed.
Notation a := (x_app x).

Lemma task_fn n k p sh lo : src_task items n k p sh lo -> exists c, is_fn x n c (mkArgs sh lo) /\ (ctx_cond n c = match k with KIdle => [] | _ => [CTask n] end).
Proof.
  intros T. apply (@is_task_x _ _ _ _ Hx) in T. remember (mkArgs sh lo) as ar eqn:E. destruct T as [n ar T|n t T|n t T].
  - exists XIdle. split; [now apply Fn_idle|reflexivity].
  - exists XHard. split; [now apply Fn_hw|reflexivity].
  - exists (soft t). split; [now apply Fn_sw|reflexivity].
Qed.
Lemma sw_fn n r : In (ITask n r) items -> rt_binds r = None -> In (n, sw_of r) (ap_sw a).
Proof. intros I B. apply (@w_input _ _ _ _ Hx). eauto. Qed.

(** A task that is not compiled out has what its author asked for, as far as it is not compiled out. *)
Theorem C82_task_present n k p sh lo : src_task items n k p sh lo -> (k <> KIdle -> on (CTask n) = true) ->
  defined comp (NIn n "Context") /\
  (forall i, k = KHard i -> defined comp (NV i)) /\
  (forall r ac, In (r, ac) sh -> defined comp (NF (ctx_name n) "shared") /\ (on (CShared r) = true -> defined comp (NF (NT (shared_ident n)) r))) /\
  (forall r, In (r, External) lo -> defined comp (NF (ctx_name n) "local") /\ (on (CLocal r) = true -> defined comp (NF (NT (local_ident n)) r))) /\
  (forall r, In (r, Declared) lo -> defined comp (NF (ctx_name n) "local") /\ (on (CDecl n r) = true -> defined comp (NF (NT (local_ident n)) r))).
Proof.
  intros T On. destruct (task_fn T) as (c & F & C). assert (Hc : holds on (ctx_cond n c) = true) by (rewrite C; destruct k; [reflexivity|cbn; rewrite On by discriminate; reflexivity..]).
  assert (L : forall r d, In (r, d) lo -> defined comp (NF (ctx_name n) "local") /\ (holds on (lr_cond n (r, d)) = true -> defined comp (NF (NT (local_ident n)) r))).
  { intros r d I. assert (N : lo <> []) by (intros ->; destruct I). split.
    - eapply (@d_ctx_field b x sn ln ext dty core periph on _ _ _ F) with (p := mkPc [] [NF (ctx_name n) "local"] [NT n; NIn n "LocalResources"] []); [exact Hc| |reflexivity|now left].
      cbn [ctx_items hd g_body]. right. unfold ctx_fields. repeat rewrite in_app_iff. right. left. cbn [a_local]. destruct lo; [destruct I|now left].
    - intros Q. eapply (@d_lo_field b x sn ln ext dty core periph on _ _ _ F) with (p := mkPc (lr_cond n (r, d)) [NF (NT (local_ident n)) r] [] (lr_ty x dty n (r, d))); [exact N| |exact Q|now left].
      cbn [local_struct g_body a_local]. apply in_app_iff. left. apply in_map_iff. exists (r, d). split; [reflexivity|exact I]. }
  split; [eapply d_in_ctx; eauto|]. split; [|split; [|split]].
  - intros i ->. apply (@is_task_x _ _ _ _ Hx) in T. remember (KHard i) as K eqn:EK. remember (mkArgs sh lo) as ar. destruct T as [n ar T|n t T|n t T]; [discriminate| |discriminate]. injection EK as <-.
    eapply comp_def with (g := handler ext n t); [now apply It_handler|cbn; rewrite On by discriminate; reflexivity|now left].
  - intros r ac I. assert (N : sh <> []) by (intros ->; destruct I). split.
    + eapply (@d_ctx_field b x sn ln ext dty core periph on _ _ _ F) with (p := mkPc [] [NF (ctx_name n) "shared"] [NT n; NIn n "SharedResources"] []); [exact Hc| |reflexivity|now left].
      cbn [ctx_items hd g_body]. right. unfold ctx_fields. repeat rewrite in_app_iff. right. right. left. cbn [a_shared]. destruct sh; [destruct I|now left].
    + intros Q. eapply (@d_sh_field b x sn ln ext dty core periph on _ _ _ F) with (p := sr_field x n (r, ac)); [exact N| | |].
      * cbn [shared_struct g_body a_shared]. apply in_app_iff. left. apply in_map_iff. exists (r, ac). split; [reflexivity|exact I].
      * unfold sr_field. destruct (_ || _); cbn; now rewrite Q.
      * unfold sr_field. destruct (_ || _); now left.
  - intros r I. destruct (L _ _ I) as [A B]. split; [exact A|]. intros Q. apply B. cbn. now rewrite Q.
  - intros r I. destruct (L _ _ I) as [A B]. split; [exact A|]. intros Q. apply B. cbn. now rewrite Q.
Qed.

(** Resources that are not compiled out can be locked, unless lock-free. *)
Theorem C82_lock_present r s : shared_field items r s -> sr_lock_free s = false -> on (CShared r) = true -> defined comp (proxy r) /\ defined comp (NA (proxy r) "lock").
Proof.
  intros S L C. apply (@w_shared _ _ _ _ Hx) in S. split.
  - eapply d_proxy; eauto. right. now left.
  - eapply comp_def with (g := mkG [CShared r] [NA (proxy r) "lock"] None [mkPc [] [] [NT "shared_resources"; proxy r; NV (shared_static r)] [sr_ty s]]); [eapply It_mutex; [exact S|unfold mutex_item; cbn [snd fst]; rewrite L; now left]|cbn; now rewrite C|now left].
Qed.

(** Software tasks that are not compiled out can be woken and spawned: local ones by tasks of their priority. *)
Theorem C82_spawn_present n r : In (ITask n r) items -> rt_binds r = None -> on (CTask n) = true ->
  defined comp (NIn n "waker") /\
  (rt_local_task r <> Some true -> defined comp (NIn n "spawn")) /\
  (forall m r', rt_local_task r = Some true -> In (ITask m r') items -> rt_binds r' = None -> soft_prio r' = soft_prio r -> on (CTask m) = true ->
     defined comp (NF (ctx_name m) "local_spawner") /\ defined comp (NA (NT (task_ident m "LocalSpawner")) n)).
Proof.
  intros I B On. pose proof (@sw_fn _ _ I B) as J.
  assert (Q : forall p c, In p (g_body (mod_item n (soft (sw_of r)) (sw_args (sw_of r)))) -> pc_if p = [CTask n] -> In c (pc_def p) -> defined comp c).
  { intros p c Ip Ep Ic. eapply comp_piece with (p := p); [eapply (@It_fn b x sn ln ext dty core periph); [exact (Fn_sw x _ _ J)|apply in_mod_item]|cbn; now rewrite On|exact Ip|rewrite Ep; cbn; now rewrite On|exact Ic]. }
  split; [|split].
  - eapply Q with (p := mkPc [CTask n] [NIn n "waker"] [NV (task_ident n "waker")] []); [|reflexivity|now left].
    unfold mod_item. cbn [g_body soft]. repeat rewrite in_app_iff. right. right. left. right. now left.
  - intros NL. eapply Q with (p := mkPc [CTask n] [NIn n "spawn"] [NV (task_ident n "spawn")] []); [|reflexivity|now left].
    unfold mod_item. cbn [g_body soft]. repeat rewrite in_app_iff. right. right. left. left. cbn. destruct (rt_local_task r) as [[]|]; [now destruct NL|now left..].
  - intros m r' L Im Bm Ep Onm. pose proof (@sw_fn _ _ Im Bm) as Jm.
    assert (A : In (n, sw_of r) (locals_at x (sw_prio (sw_of r')))).
    { unfold locals_at. apply filter_In. split; [exact J|]. unfold sw_of; cbn [snd sw_local_task sw_prio]. rewrite L, Ep. apply Nat.eqb_refl. }
    split.
    + eapply (@d_ctx_field b x sn ln ext dty core periph on _ _ _ (Fn_sw x _ _ Jm)) with (p := mkPc [] [NF (ctx_name m) "local_spawner"] [NT (task_ident m "LocalSpawner")] []); [cbn; now rewrite Onm| |reflexivity|now left].
      cbn [ctx_items hd g_body]. right. unfold ctx_fields. repeat rewrite in_app_iff. right. right. right. unfold has_spawner, soft. destruct (locals_at x _); [destruct A|now left].
    + eapply comp_piece with (g := mkG [] [] None _) (p := mkPc [CTask n] [NA (NT (task_ident m "LocalSpawner")) n] [NV (task_ident n "spawn")] _);
        [eapply (@It_fn b x sn ln ext dty core periph); [exact (Fn_sw x _ _ Jm)|apply in_soft; apply in_app_iff; right]|reflexivity| |cbn; now rewrite On|now left].
      * unfold spawner_items. destruct (locals_at x _) eqn:E; [destruct A|]. rewrite <- E. right. left. reflexivity.
      * cbn [g_body]. right. apply in_map_iff. exists (n, sw_of r). split; [reflexivity|exact A].
Qed.

Lemma lock_ident_tail r s : lock_ident r <> append s "Context" /\ lock_ident r <> append s "spawn" /\ lock_ident r <> append s "waker" /\ lock_ident r <> append s "Resources".
Proof.
  assert (A : forall u v w, append u w = "_that_needs_to_be_locked" -> String.length w = String.length v -> w <> v -> lock_ident r <> append s v).
  { intros u v w E L N H. unfold lock_ident in H. rewrite <- E, <- append_assoc in H. apply append_tail in H as [_ H]; auto. }
  split; [apply (A "_that_needs_to_be" _ "_locked"); reflexivity || discriminate|].
  split; [apply (A "_that_needs_to_be_l" _ "ocked"); reflexivity || discriminate|].
  split; [apply (A "_that_needs_to_be_l" _ "ocked"); reflexivity || discriminate|].
  apply (A "_that_needs_to_" _ "be_locked"); reflexivity || discriminate.
Qed.
(** Items of modules. *)
Lemma in_def m s : defined comp (NIn m s) -> (m = "shared_resources" /\ exists r, s = lock_ident r /\ on (CShared r) = true) \/
  exists k ar p, is_fn x m k ar /\ holds on (mod_cond m k) = true /\ In p (g_body (mod_item m k ar)) /\ holds on (pc_if p) = true /\ In (NIn m s) (pc_def p).
Proof.
  intros D. apply comp_defined in D as (g & I & C & D).
  destruct I as [g I|  | |n k ar g F I|n t I|r s' I|r s' g I I'|N|r t I|h r I|n t I|ch I|].
  - exfalso. unfold fixed_items in I. cbn in I. destruct I as [<-|[<-|I]]; [destruct D as [[D|[]]|(p & [] & _)]; discriminate..|].
    destruct b; [destruct I..|]. destruct I as [<-|[<-|[]]]; destruct D as [[D|[]]|(p & [] & _)]; discriminate.
  - exfalso. destruct D as [[D|[]]|(p & J & _ & D)]; [discriminate|]. cbn in J. apply in_map_iff in J as (r & <- & J). destruct D as [D|[]]. discriminate.
  - exfalso. destruct D as [[D|[]]|(p & J & _ & D)]; [discriminate|]. cbn in J. apply in_map_iff in J as (r & <- & J). destruct D as [D|[]]. discriminate.
  - right. unfold fn_items in I. repeat rewrite in_app_iff in I. destruct I as [I|[I|I]].
    + exfalso. unfold res_items in I. apply in_app_iff in I as [I|I].
      * assert (I' : In g [local_struct x dty n (a_local ar); local_ctor n (a_local ar)]) by (destruct (a_local ar); [destruct I|exact I]). clear I. destruct I' as [<-|[<-|[]]]; (destruct D as [[D|[]]|(p & J & _ & D)]; [discriminate|]); cbn in J.
        -- apply in_app_iff in J as [J|[<-|[]]]; [apply in_map_iff in J as (l & <- & J)|]; (destruct D as [D|[]]; discriminate).
        -- destruct J as [<-|J]; [destruct D|]. apply in_app_iff in J as [J|[<-|[]]]; [apply in_map_iff in J as (l & <- & J)|]; destruct D.
      * assert (I' : In g [shared_struct x n (a_shared ar); shared_ctor x n (a_shared ar)]) by (destruct (a_shared ar); [destruct I|exact I]). clear I. destruct I' as [<-|[<-|[]]]; (destruct D as [[D|[]]|(p & J & _ & D)]; [discriminate|]); cbn in J.
        -- apply in_app_iff in J as [J|[<-|[]]]; [apply in_map_iff in J as (l & <- & J); unfold sr_field in D; destruct (_ || _)|]; (destruct D as [D|[]]; discriminate).
        -- destruct J as [<-|J]; [destruct D|]. apply in_app_iff in J as [J|[<-|[]]]; [apply in_map_iff in J as (l & <- & J); unfold sr_value in D; destruct (_ || _)|]; destruct D.
    + unfold module in I. repeat rewrite in_app_iff in I. destruct I as [I|[I|[<-|[]]]].
      * exfalso. destruct F as [|n ar F|n t F|n t F]; [destruct I..|]. unfold soft in I. apply in_app_iff in I as [I|I].
        -- destruct I as [<-|[<-|[]]]; (destruct D as [[D|[]]|(p & J & _ & D)]; [discriminate|]); cbn in J; destruct J as [<-|[]]; destruct D.
        -- unfold spawner_items in I. destruct (locals_at x (sw_prio t)) as [|u l] eqn:E; [destruct I|]. destruct I as [<-|[<-|[]]].
           ++ destruct D as [[D|[]]|(p & [] & _)]. discriminate.
           ++ destruct D as [[]|(p & J & _ & D)]. cbn [g_body] in J. destruct J as [<-|J]; [destruct D|]. rewrite <- E in J. apply in_map_iff in J as ([n' t'] & <- & J). cbn in D. destruct D as [D|[]]. discriminate.
      * exfalso. destruct I as [<-|[<-|[]]]; (destruct D as [[D|[]]|(p & J & _ & D)]; [discriminate|]); cbn in J.
        -- destruct J as [<-|J]; [destruct D as [D|[]]; discriminate|]. unfold ctx_fields in J. repeat rewrite in_app_iff in J. destruct J as [J|[J|[J|J]]].
           ++ apply in_map_iff in J as (h & <- & J). destruct D as [D|[]]. discriminate.
           ++ destruct (a_local ar); [destruct J|]. destruct J as [<-|[]]. destruct D as [D|[]]. discriminate.
           ++ destruct (a_shared ar); [destruct J|]. destruct J as [<-|[]]. destruct D as [D|[]]. discriminate.
           ++ destruct (has_spawner x k); [|destruct J]. destruct J as [<-|[]]. destruct D as [D|[]]. discriminate.
        -- destruct J as [<-|J]; [destruct D|]. unfold ctx_values in J. repeat rewrite in_app_iff in J. destruct J as [J|[J|[J|J]]].
           ++ apply in_map_iff in J as (h & <- & J). destruct D.
           ++ destruct (a_local ar); [destruct J|]. destruct J as [<-|[]]. destruct D.
           ++ destruct (a_shared ar); [destruct J|]. destruct J as [<-|[]]. destruct D.
           ++ destruct (has_spawner x k); [|destruct J]. destruct J as [<-|[]]. destruct D.
      * destruct D as [[D|[]]|(p & J & Q & D)]; [discriminate|]. assert (E : m = n).
        { clear C Q. cbn in J. repeat rewrite in_app_iff in J. destruct J as [J|[J|[J|[<-|[]]]]].
          - destruct (a_local ar); [destruct J|]. destruct J as [<-|[]]. destruct D as [[= -> _]|[]]. reflexivity.
          - destruct (a_shared ar); [destruct J|]. destruct J as [<-|[]]. destruct D as [[= -> _]|[]]. reflexivity.
          - destruct k as [| | |p' i' lt]; [destruct J..|]. apply in_app_iff in J as [J|[<-|[]]].
            + destruct lt; [destruct J|]. destruct J as [<-|[]]. destruct D as [[= -> _]|[]]. reflexivity.
            + destruct D as [[= -> _]|[]]. reflexivity.
          - destruct D as [[= -> _]|[]]. reflexivity. }
        subst m. exists k, ar, p. auto.
    + exfalso. unfold fn_item in I. destruct (ext n); [destruct I|]. destruct I as [<-|[]]. destruct D as [[D|[]]|(p & J & _ & D)]; [discriminate|]. cbn in J. destruct J as [<-|[]]. destruct D.
  - exfalso. destruct D as [[D|[]]|(p & [<-|[]] & _ & [])]. discriminate.
  - exfalso. destruct D as [[D|[]]|(p & [<-|[]] & _ & [])]. discriminate.
  - exfalso. unfold mutex_item in I'. destruct (sr_lock_free _); [destruct I'|]. destruct I' as [<-|[]]. destruct D as [[D|[]]|(p & [<-|[]] & _ & [])]. discriminate.
  - left. destruct D as [[D|[]]|(p & J & Q & D)]; [discriminate|]. cbn in J. apply in_flat_map in J as ([r s'] & I & J). unfold proxy_pieces in J. cbn [fst snd] in J. destruct (sr_lock_free _); [destruct J|].
    destruct J as [<-|[<-|[]]]; destruct D as [D|[]]; [|discriminate]. cbn [pc_if] in Q. apply (one on) in Q. injection D as <- <-. eauto.
  - exfalso. destruct D as [[D|[]]|(p & [<-|[]] & _ & [])]. discriminate.
  - exfalso. destruct D as [[D|[]]|(p & [<-|[]] & _ & [])]. discriminate.
  - exfalso. destruct D as [[D|[]]|(p & [<-|[]] & _ & [])]. discriminate.
  - exfalso. destruct D as [[D|[]]|(p & J & _ & D)]; [discriminate|]. cbn in J. apply in_map_iff in J as (n & <- & J). destruct D.
  - exfalso. destruct D as [[D|[]]|(p & J & _ & D)]; [discriminate|]. unfold main_item in J. cbn [g_body] in J. repeat rewrite in_app_iff in J. destruct J as [[<-|[]]|[J|[[<-|[]]|[J|[<-|[]]]]]]; [destruct D|..].
    + destruct (to_configure a (x_ints x)); [destruct J|]. destruct J as [<-|[]]. destruct D.
    + destruct D.
    + unfold post_init in J. apply in_app_iff in J as [J|J]; apply in_map_iff in J as (r & <- & J); destruct D.
    + destruct D.
Qed.

(** What is compiled out cannot be named: the context, [spawn] and [waker] of a task; locks and fields of resources. *)
Theorem C82_task_absent n r : In (ITask n r) items -> on (CTask n) = false -> ~ defined comp (NIn n "Context") /\ ~ defined comp (NIn n "spawn") /\ ~ defined comp (NIn n "waker").
Proof.
  intros I Off. assert (A : forall s, In s ["Context"; "spawn"; "waker"] -> ~ defined comp (NIn n s)).
  { intros s Is D. apply in_def in D as [(-> & q & E & _)|(k & ar & p & F & C & J & Q & D)].
    - destruct (lock_ident_tail q "") as (A1 & A2 & A3 & _). destruct Is as [<-|[<-|[<-|[]]]]; simpl in *; congruence.
    - assert (K : ctx_cond n k = [CTask n] /\ (mod_cond n k = [CTask n] \/ mod_cond n k = [])).
      { destruct (rt_binds r) as [i|] eqn:B.
        - destruct (task_fn (S_hard _ _ _ I B)) as (c & F' & E). destruct (@is_fn_unique _ _ _ _ Hx _ _ _ _ _ F F') as [-> _]. split; [exact E|]. destruct c; auto.
        - destruct (task_fn (S_soft _ _ _ I B)) as (c & F' & E). destruct (@is_fn_unique _ _ _ _ Hx _ _ _ _ _ F F') as [-> _]. split; [exact E|]. destruct c; auto. }
      destruct K as [K1 K2]. assert (P : forall c, holds on [c] = true -> c = CTask n -> False) by (intros c H ->; cbn in H; rewrite Off in H; discriminate).
      cbn in J. repeat rewrite in_app_iff in J. destruct J as [J|[J|[J|[<-|[]]]]].
      + destruct (a_local ar); [destruct J|]. destruct J as [<-|[]]. destruct D as [[= <-]|[]]. destruct Is as [E|[E|[E|[]]]]; discriminate.
      + destruct (a_shared ar); [destruct J|]. destruct J as [<-|[]]. destruct D as [[= <-]|[]]. destruct Is as [E|[E|[E|[]]]]; discriminate.
      + destruct k as [| | |p' i' lt]; [destruct J..|]. apply in_app_iff in J as [J|[<-|[]]].
        * destruct lt; [destruct J|]. destruct J as [<-|[]]. exact (P _ Q eq_refl).
        * exact (P _ Q eq_refl).
      + cbn [pc_if] in Q. rewrite K1 in Q. exact (P _ Q eq_refl). }
  repeat split; apply A; cbn; auto.
Qed.
Theorem C82_shared_absent r n : ~ is_internal sn -> ~ is_internal ln -> ~ is_internal r -> on (CShared r) = false -> ~ defined comp (NF (NT (shared_ident n)) r) /\ ~ defined comp (proxy r).
Proof.
  intros Hsn Hln Hr Off. assert (Hm : r <> "__rtic_internal_marker") by (intros ->; apply Hr; exists "marker"; reflexivity). split; intros D.
  - apply (@field_def _ _ _ _ Hx) in D as [D|[D|(m & k & ar & F & [(D & _)|[(D & _ & [E|(ac & _ & E)])|(D & _)]])]].
    + injection D as D. apply Hsn. eexists. symmetry. exact D.
    + injection D as D. apply Hln. eexists. symmetry. exact D.
    + refine (@local_shared_ident m n (eq_sym (f_equal (fun z => match z with NT s => s | _ => sn end) D))).
    + contradiction.
    + congruence.
    + refine (@shared_context_ident n m (f_equal (fun z => match z with NT s => s | _ => sn end) D)).
  - apply in_def in D as [(_ & q & E & Q)|(k & ar & p & F & C & J & Q & D)].
    + unfold lock_ident in E. apply append_tail in E as [<- _]; [congruence|reflexivity].
    + exfalso. destruct (lock_ident_tail r "") as (A1 & A2 & A3 & _). destruct (lock_ident_tail r "Local") as (_ & _ & _ & A4). destruct (lock_ident_tail r "Shared") as (_ & _ & _ & A5). simpl in A1, A2, A3, A4, A5.
      cbn in J. repeat rewrite in_app_iff in J. destruct J as [J|[J|[J|[<-|[]]]]].
      * destruct (a_local ar); [destruct J|]. destruct J as [<-|[]]. destruct D as [[= D]|[]]. congruence.
      * destruct (a_shared ar); [destruct J|]. destruct J as [<-|[]]. destruct D as [[= D]|[]]. congruence.
      * destruct k as [| | |p' i' lt]; [destruct J..|]. apply in_app_iff in J as [J|[<-|[]]].
        -- destruct lt; [destruct J|]. destruct J as [<-|[]]. destruct D as [[= D]|[]]. congruence.
        -- destruct D as [[= D]|[]]. congruence.
      * destruct D as [[= D]|[]]. congruence.
Qed.

(** Associated functions of spawners. *)
Lemma task_spawner_ident n m s : String.length s = 12 -> s <> "LocalSpawner" -> task_ident n "LocalSpawner" <> internal (append m s).
Proof. intros L N E. apply append_head in E. rewrite <- append_assoc in E. apply append_tail in E as [_ E]; [congruence|now rewrite L]. Qed.
Lemma spawner_other n m : task_ident n "LocalSpawner" <> local_ident m /\ task_ident n "LocalSpawner" <> shared_ident m /\ task_ident n "LocalSpawner" <> task_ident m "Context".
Proof.
  repeat split.
  - unfold local_ident. change "LocalResources" with (append "Lo" "calResources"). rewrite <- append_assoc. now apply task_spawner_ident.
  - unfold shared_ident. change "SharedResources" with (append "Sha" "redResources"). rewrite <- append_assoc. now apply task_spawner_ident.
  - intros E. apply append_head in E. change "LocalSpawner" with (append "Local" "Spawner") in E. rewrite <- !append_assoc in E. apply append_tail in E as [_ E]; [discriminate|reflexivity].
Qed.
Lemma spawner_def n u : defined comp (NA (NT (task_ident n "LocalSpawner")) u) -> exists t t', In (n, t) (ap_sw a) /\ In (u, t') (locals_at x (sw_prio t)) /\ on (CTask u) = true.
Proof.
  intros D. apply comp_defined in D as (g & I & C & D).
  destruct I as [g I|  | |m k ar g F I|m t I|r s' I|r s' g I I'|N|r t I|h r I|m t I|ch I|].
  - exfalso. unfold fixed_items in I. cbn in I. destruct I as [<-|[<-|I]]; [destruct D as [[D|[]]|(p & [] & _)]; discriminate..|].
    destruct b; [destruct I..|]. destruct I as [<-|[<-|[]]]; destruct D as [[D|[]]|(p & [] & _)]; discriminate.
  - exfalso. destruct D as [[D|[]]|(p & J & _ & D)]; [discriminate|]. cbn in J. apply in_map_iff in J as (r & <- & J). destruct D as [D|[]]. discriminate.
  - exfalso. destruct D as [[D|[]]|(p & J & _ & D)]; [discriminate|]. cbn in J. apply in_map_iff in J as (r & <- & J). destruct D as [D|[]]. discriminate.
  - destruct (spawner_other n m) as (O1 & O2 & O3). unfold fn_items in I. repeat rewrite in_app_iff in I. destruct I as [I|[I|I]].
    + exfalso. unfold res_items in I. apply in_app_iff in I as [I|I].
      * assert (I' : In g [local_struct x dty m (a_local ar); local_ctor m (a_local ar)]) by (destruct (a_local ar); [destruct I|exact I]). clear I. destruct I' as [<-|[<-|[]]]; destruct D as [[D|[]]|(p & J & _ & D)]; try discriminate; try (cbn in J).
        -- apply in_app_iff in J as [J|[<-|[]]]; [apply in_map_iff in J as (l & <- & J)|]; (destruct D as [D|[]]; discriminate).
        -- exact (O1 (eq_sym (f_equal (fun z => match z with NA (NT s) _ => s | _ => sn end) D))).
        -- destruct J as [<-|J]; [destruct D|]. apply in_app_iff in J as [J|[<-|[]]]; [apply in_map_iff in J as (l & <- & J)|]; destruct D.
      * assert (I' : In g [shared_struct x m (a_shared ar); shared_ctor x m (a_shared ar)]) by (destruct (a_shared ar); [destruct I|exact I]). clear I. destruct I' as [<-|[<-|[]]]; destruct D as [[D|[]]|(p & J & _ & D)]; try discriminate; try (cbn in J).
        -- apply in_app_iff in J as [J|[<-|[]]]; [apply in_map_iff in J as (l & <- & J); unfold sr_field in D; destruct (_ || _)|]; (destruct D as [D|[]]; discriminate).
        -- exact (O2 (eq_sym (f_equal (fun z => match z with NA (NT s) _ => s | _ => sn end) D))).
        -- destruct J as [<-|J]; [destruct D|]. apply in_app_iff in J as [J|[<-|[]]]; [apply in_map_iff in J as (l & <- & J); unfold sr_value in D; destruct (_ || _)|]; destruct D.
    + unfold module in I. repeat rewrite in_app_iff in I. destruct I as [I|[I|[<-|[]]]].
      * destruct F as [|m ar F|m t F|m t F]; [destruct I..|]. unfold soft in I. apply in_app_iff in I as [I|I].
        -- exfalso. destruct I as [<-|[<-|[]]]; (destruct D as [[D|[]]|(p & J & _ & D)]; [discriminate|]); cbn in J; destruct J as [<-|[]]; destruct D.
        -- unfold spawner_items in I. destruct (locals_at x (sw_prio t)) as [|v l] eqn:E; [destruct I|]. destruct I as [<-|[<-|[]]].
           ++ destruct D as [[D|[]]|(p & [] & _)]. discriminate.
           ++ destruct D as [[]|(p & J & Q & D)]. cbn [g_body] in J. destruct J as [<-|J]; [destruct D|]. rewrite <- E in J. apply in_map_iff in J as ([u' t'] & <- & J). cbn [pc_def pc_if fst] in D, Q. destruct D as [D|[]].
              assert (m = n) as -> by (apply (task_ident_inj (s := "LocalSpawner")); exact (f_equal (fun z => match z with NA (NT s) _ => s | _ => sn end) D)).
              assert (u' = u) as -> by exact (f_equal (fun z => match z with NA _ f => f | _ => sn end) D). apply (one on) in Q. eauto.
      * exfalso. destruct I as [<-|[<-|[]]]; destruct D as [[D|[]]|(p & J & _ & D)]; try discriminate; try (cbn in J).
        -- destruct J as [<-|J]; [destruct D as [D|[]]; discriminate|]. unfold ctx_fields in J. repeat rewrite in_app_iff in J. destruct J as [J|[J|[J|J]]].
           ++ apply in_map_iff in J as (h & <- & J). destruct D as [D|[]]. discriminate.
           ++ destruct (a_local ar); [destruct J|]. destruct J as [<-|[]]. destruct D as [D|[]]. discriminate.
           ++ destruct (a_shared ar); [destruct J|]. destruct J as [<-|[]]. destruct D as [D|[]]. discriminate.
           ++ destruct (has_spawner x k); [|destruct J]. destruct J as [<-|[]]. destruct D as [D|[]]. discriminate.
        -- exact (O3 (eq_sym (f_equal (fun z => match z with NA (NT s) _ => s | _ => sn end) D))).
        -- destruct J as [<-|J]; [destruct D|]. unfold ctx_values in J. repeat rewrite in_app_iff in J. destruct J as [J|[J|[J|J]]].
           ++ apply in_map_iff in J as (h & <- & J). destruct D.
           ++ destruct (a_local ar); [destruct J|]. destruct J as [<-|[]]. destruct D.
           ++ destruct (a_shared ar); [destruct J|]. destruct J as [<-|[]]. destruct D.
           ++ destruct (has_spawner x k); [|destruct J]. destruct J as [<-|[]]. destruct D.
      * exfalso. destruct D as [[D|[]]|(p & J & _ & D)]; [discriminate|]. cbn in J. repeat rewrite in_app_iff in J. destruct J as [J|[J|[J|[<-|[]]]]].
        -- destruct (a_local ar); [destruct J|]. destruct J as [<-|[]]. destruct D as [D|[]]. discriminate.
        -- destruct (a_shared ar); [destruct J|]. destruct J as [<-|[]]. destruct D as [D|[]]. discriminate.
        -- destruct k as [| | |p' i' lt]; [destruct J..|]. apply in_app_iff in J as [J|[<-|[]]].
           ++ destruct lt; [destruct J|]. destruct J as [<-|[]]. destruct D as [D|[]]. discriminate.
           ++ destruct D as [D|[]]. discriminate.
        -- destruct D as [D|[]]. discriminate.
    + exfalso. unfold fn_item in I. destruct (ext m); [destruct I|]. destruct I as [<-|[]]. destruct D as [[D|[]]|(p & J & _ & D)]; [discriminate|]. cbn in J. destruct J as [<-|[]]. destruct D.
  - exfalso. destruct D as [[D|[]]|(p & [<-|[]] & _ & [])]. discriminate.
  - exfalso. destruct D as [[D|[]]|(p & [<-|[]] & _ & [])]. discriminate.
  - exfalso. unfold mutex_item in I'. destruct (sr_lock_free _); [destruct I'|]. destruct I' as [<-|[]]. destruct D as [[D|[]]|(p & [<-|[]] & _ & [])]. discriminate.
  - exfalso. destruct D as [[D|[]]|(p & J & Q & D)]; [discriminate|]. cbn in J. apply in_flat_map in J as ([r s'] & I & J). unfold proxy_pieces in J. cbn [fst snd] in J. destruct (sr_lock_free _); [destruct J|].
    destruct J as [<-|[<-|[]]]; destruct D as [D|[]]; discriminate.
  - exfalso. destruct D as [[D|[]]|(p & [<-|[]] & _ & [])]. discriminate.
  - exfalso. destruct D as [[D|[]]|(p & [<-|[]] & _ & [])]. discriminate.
  - exfalso. destruct D as [[D|[]]|(p & [<-|[]] & _ & [])]. discriminate.
  - exfalso. destruct D as [[D|[]]|(p & J & _ & D)]; [discriminate|]. cbn in J. apply in_map_iff in J as (m & <- & J). destruct D.
  - exfalso. destruct D as [[D|[]]|(p & J & _ & D)]; [discriminate|]. unfold main_item in J. cbn [g_body] in J. repeat rewrite in_app_iff in J. destruct J as [[<-|[]]|[J|[[<-|[]]|[J|[<-|[]]]]]]; [destruct D|..].
    + destruct (to_configure a (x_ints x)); [destruct J|]. destruct J as [<-|[]]. destruct D.
    + destruct D.
    + unfold post_init in J. apply in_app_iff in J as [J|J]; apply in_map_iff in J as (r & <- & J); destruct D.
    + destruct D.
Qed.

(** Who can spawn what (the relation of C10 and C71) is what is generated: a re-exported [spawn], or a method of the task's spawner. *)
Theorem C71_generated_spawners u : on (CTask u) = true -> (can_spawn a None u = true <-> defined comp (NIn u "spawn")) /\
  (forall n, (exists r, In (ITask n r) items /\ rt_binds r = None) -> (can_spawn a (Some n) u = true <-> defined comp (NIn u "spawn") \/ defined comp (NA (NT (task_ident n "LocalSpawner")) u))).
Proof.
  intros On.
  assert (G : defined comp (NIn u "spawn") -> exists r, In (ITask u r) items /\ rt_binds r = None /\ rt_local_task r <> Some true).
  { intros D. apply in_def in D as [(_ & q & E & _)|(k & ar & p & F & C & J & Q & D)].
    - exfalso. destruct (lock_ident_tail q "") as (_ & A & _). simpl in A. congruence.
    - cbn in J. repeat rewrite in_app_iff in J. destruct J as [J|[J|[J|[<-|[]]]]].
      + destruct (a_local ar); [destruct J|]. destruct J as [<-|[]]. destruct D as [D|[]]. discriminate.
      + destruct (a_shared ar); [destruct J|]. destruct J as [<-|[]]. destruct D as [D|[]]. discriminate.
      + destruct F as [|n ar F|n t F|n t F]; [destruct J..|]. unfold soft in J. apply in_app_iff in J as [J|[<-|[]]]; [|destruct D as [D|[]]; discriminate].
        apply (@w_input _ _ _ _ Hx) in F as (r & I & B & ->). exists r. split; [exact I|]. split; [exact B|]. intros E. cbn in J. rewrite E in J. destruct J.
      + destruct D as [D|[]]. discriminate. }
  split; [|intros n (rn & In_ & Bn)]; rewrite (@C71_spawners _ _ _ _ Hx); split.
  - intros (r & I & B & [L|(n & sh & lo & E & _)]); [|discriminate]. now apply (@C82_spawn_present _ _ I B On).
  - intros D. destruct (G D) as (r & I & B & L). eauto.
  - intros (r & I & B & [L|(m & sh & lo & [= <-] & T)]); [left; now apply (@C82_spawn_present _ _ I B On)|].
    destruct (rt_local_task r) as [[]|] eqn:L; [right|left; apply (@C82_spawn_present _ _ I B On); congruence..].
    apply sw_fn in In_; [|exact Bn]. pose proof (@sw_fn _ _ I B) as J. apply (@is_task_x _ _ _ _ Hx) in T. remember KSoft as K. remember (mkArgs sh lo) as ar. remember (soft_prio r) as q. destruct T as [n ar T|n t T|n t T]; [discriminate..|].
    assert (A : In (u, sw_of r) (locals_at x (sw_prio t))) by (unfold locals_at; apply filter_In; split; [exact J|]; unfold sw_of; cbn [snd sw_local_task sw_prio]; rewrite L, Heqq; apply Nat.eqb_refl).
    eapply comp_piece with (g := mkG [] [] None _) (p := mkPc [CTask u] [NA (NT (task_ident n "LocalSpawner")) u] [NV (task_ident u "spawn")] _);
      [eapply (@It_fn b x sn ln ext dty core periph); [exact (Fn_sw x _ _ T)|apply in_soft; apply in_app_iff; right]|reflexivity| |cbn; now rewrite On|now left].
    + unfold spawner_items. destruct (locals_at x _) eqn:E; [destruct A|]. rewrite <- E. right. left. reflexivity.
    + cbn [g_body]. right. apply in_map_iff. exists (u, sw_of r). split; [reflexivity|exact A].
  - intros [D|D].
    + destruct (G D) as (r & I & B & L). eauto.
    + apply spawner_def in D as (t & t' & In1 & A & _). unfold locals_at in A. apply filter_In in A as [A1 A2]. cbn [snd] in A2. apply andb_true_iff in A2 as [A2 A3]. apply Nat.eqb_eq in A3.
      apply (@w_input _ _ _ _ Hx) in A1 as (r & I & B & ->). exists r. split; [exact I|]. split; [exact B|]. right. apply (@w_input _ _ _ _ Hx) in In1 as (r' & I' & B' & ->). cbn in A3. rewrite A3. do 3 eexists. split; [reflexivity|]. exact (S_soft _ _ _ I' B').
Qed.
End C82.

(** Example: task [uart], resource [cfg] and the resource [state] of [work] are compiled out. *)
Definition ex_on (c : cond) : bool := match c with CTask "uart" | CShared "cfg" | CDecl "work" "state" => false | _ => true end.
Definition ex_dty (t r : ident) : ty := 7.
Notation ex_comp on := (compiled (Cortex 3) ex_x "Shared" "Local" (fun _ => false) ex_dty true true on).
Example C82_case : resolved (ex_comp ex_on) /\ literals_complete (ex_comp ex_on) /\
  defined (ex_comp ex_on) (NIn "log" "spawn") /\ defined (ex_comp ex_on) (NF (NT (shared_ident "work")) "cnt") /\ ~ defined (ex_comp ex_on) (NF (NT (shared_ident "work")) "cfg") /\
  ~ defined (ex_comp ex_on) (NIn "uart" "Context") /\ ~ mentioned (ex_comp ex_on) 7.
Proof.
  assert (NS : ~ is_internal "Shared") by (intros [t E]; discriminate). assert (NL : ~ is_internal "Local") by (intros [t E]; discriminate).
  split; [exact (@C82_names_resolve_partial _ _ _ _ ex_accepted _ _ _ _ _ _ _ eq_refl eq_refl)|].
  split; [exact (@C82_literals_complete _ _ _ _ ex_accepted _ _ _ _ _ _ _ NS NL)|].
  assert (IL : In (ITask "log" (mkRaw None (Some 3) (Some []) None None [5])) ex_items) by (vm_compute; tauto).
  split; [refine (proj1 (proj2 (@C82_spawn_present _ _ _ _ ex_accepted "Shared" "Local" (fun _ => false) ex_dty true true ex_on _ _ IL eq_refl eq_refl)) _); discriminate|].
  assert (IW : In (ITask "work" (mkRaw None (Some 1) (Some [("cnt", Exclusive); ("cfg", SharedRef)]) (Some [("state", Declared)]) None [])) ex_items) by (vm_compute; tauto).
  split.
  { destruct (@C82_task_present _ _ _ _ ex_accepted "Shared" "Local" (fun _ => false) ex_dty true true ex_on _ _ _ _ _ (S_soft _ _ _ IW eq_refl) (fun _ => eq_refl)) as (_ & _ & S & _). exact (proj2 (S "cnt" Exclusive (or_introl eq_refl)) eq_refl). }
  split; [apply (@C82_shared_absent _ _ _ _ ex_accepted); auto; intros [t E]; discriminate|].
  assert (IU : In (ITask "uart" (mkRaw (Some "UART0") (Some 2) (Some [("cnt", Exclusive); ("raw", Exclusive); ("cfg", SharedRef)]) (Some [("buf", External)]) None [])) ex_items) by (vm_compute; tauto).
  split; [exact (proj1 (@C82_task_absent _ _ _ _ ex_accepted "Shared" "Local" (fun _ => false) ex_dty true true ex_on _ _ IU eq_refl))|].
  assert (E : existsb (fun g => existsb (Nat.eqb 7) (types_of g)) (ex_comp ex_on) = false) by (vm_compute; reflexivity).
  intros (g & I & J). assert (H : existsb (fun g => existsb (Nat.eqb 7) (types_of g)) (ex_comp ex_on) = true) by (apply existsb_exists; exists g; split; [exact I|]; apply existsb_exists; exists 7; split; [exact J|reflexivity]). congruence.
Qed.

(** [#[cfg]] on [idle] removes the function, but not its use. *)
Theorem C82_idle_attributes_refuted : exists on, on CInit = true /\ (forall t, on (CTask t) = true) /\ used (ex_comp on) (NV "idle") /\ ~ defined (ex_comp on) (NV "idle").
Proof.
  exists (fun c => match c with CIdle => false | _ => true end). split; [reflexivity|]. split; [reflexivity|]. split.
  - exists (last (ex_comp (fun c => match c with CIdle => false | _ => true end)) (mkG [] [] None [])). split.
    + assert (G : forall (l : list gitem) d, l <> [] -> In (last l d) l). { intros l d N. destruct (exists_last N) as (l' & z & ->). rewrite last_last. apply in_app_iff. right. now left. } apply G. vm_compute. discriminate.
    + vm_compute. tauto.
  - intros (g & I & J). assert (E : existsb (fun g => existsb (fun n => match n with NV s => ieq s "idle" | _ => false end) (defs g)) (ex_comp (fun c => match c with CIdle => false | _ => true end)) = false) by (vm_compute; reflexivity).
    assert (H : existsb (fun g => existsb (fun n => match n with NV s => ieq s "idle" | _ => false end) (defs g)) (ex_comp (fun c => match c with CIdle => false | _ => true end)) = true).
    { apply existsb_exists. exists g. split; [exact I|]. apply existsb_exists. exists (NV "idle"). split; [exact J|reflexivity]. } congruence.
Qed.
(** The type of a compiled-out resource or argument is mentioned nevertheless (it may not exist under that configuration). *)
Theorem C82_types_refuted : exists on, mentioned (ex_comp on) 1 /\ mentioned (ex_comp on) 5 /\ ~ written ex_items ex_dty on 1 /\ ~ written ex_items ex_dty on 5.
Proof.
  exists (fun c => match c with CShared "cnt" | CTask "log" => false | _ => true end).
  assert (W : forall T, T = 1 \/ T = 5 -> ~ written ex_items ex_dty (fun c => match c with CShared "cnt" | CTask "log" => false | _ => true end) T).
  { intros T HT W. destruct W as [r s (st & fs & I & J) C|r t (st & fs & I & J) C|f r D C|n raw t I B J C].
    - repeat (destruct I as [I|I]; [try discriminate; injection I as <- <-|]); [|destruct I]. repeat (destruct J as [J|J]; [injection J as <- <-|]); [discriminate| | |destruct J]; cbn in HT; destruct HT; discriminate.
    - repeat (destruct I as [I|I]; [try discriminate; injection I as <- <-|]); [|destruct I]. repeat (destruct J as [J|J]; [injection J as <- <-|]); [|destruct J]; cbn in HT; destruct HT; discriminate.
    - cbn in HT. destruct HT; discriminate.
    - repeat (destruct I as [I|I]; [try discriminate; injection I as <- <-|]); try discriminate; try (destruct J; fail); destruct I. }
  split; [|split; [|split; apply W; auto]]; (apply (@C82_types _ _ _ _ ex_accepted); right; left; vm_compute; tauto).
Qed.
Print Assumptions C82_names_resolve_partial. Print Assumptions C82_literals_complete. Print Assumptions C82_types. Print Assumptions C82_spawn_present. Print Assumptions C82_shared_absent. Print Assumptions C71_generated_spawners.
