From Verif Require Import Base LTS AppModel AppSpec AppProofs AppAnalysis AppFinal SigModel SigSpec SigProofs RefModel RefSpec.
Set Implicit Arguments.
Open Scope string_scope. Open Scope list_scope. Open Scope nat_scope.

Lemma ieq_refl n : ieq n n = true. Proof. now apply ieq_eq. Qed.
Lemma iget_NoDup {V} (m : list (ident * V)) n v : NoDup (map fst m) -> In (n, v) m -> iget m n = Some v.
Proof. intros N I. now apply in_iget. Qed.

Section App.
Variables (b : bkind) (disp : list ident) (items : list item) (x : expansion).
Hypothesis Hx : expand b disp items = Some x.
Let a := x_app x.

Lemma wf_x : app_wf a.
Proof.
  destruct (@expand_accepted _ _ _ _ Hx) as [a0 A]. pose proof (pd_wf (ac_parsed A)) as W. pose proof (ac_disp A) as D.
  assert (E : a = with_disp a0 (ap_disp (x_app x))) by exact (ac_app A).
  assert (T : forall n k p ar, is_task a n k p ar -> is_task a0 n k p ar) by (intros n k p ar T; now apply (acc_is_task A) in T).
  destruct W as [W1 W2 W3 W4 W5 W6 W7 W8 W9]. constructor; try (intros n k p ar I; apply T in I; eauto); try exact D; rewrite E; assumption.
Qed.
Lemma is_task_x n k p sh lo : src_task items n k p sh lo <-> is_task a n k p (mkArgs sh lo).
Proof. destruct (@expand_accepted _ _ _ _ Hx) as [a0 A]. rewrite (pd_task (ac_parsed A)). unfold a. symmetry. apply (acc_is_task A). Qed.

Lemma ctx_task n k p ar : ctx_of a n = Some (k, p, ar) -> k <> FInit ->
  is_task a n (match k with FIdle => KIdle | FHard => KHard (match iget (ap_hw a) n with Some t => hw_binds t | None => n end) | _ => KSoft end) p ar.
Proof.
  unfold ctx_of. destruct (ieq n (fst (ap_init a))); [intros [= <- _ _]; congruence|].
  assert (R : match iget (ap_hw a) n with Some t => Some (FHard, hw_prio t, hw_args t) | None => match iget (ap_sw a) n with Some t => Some (FSoft, sw_prio t, sw_args t) | None => None end end = Some (k, p, ar) ->
    is_task a n (match k with FIdle => KIdle | FHard => KHard (match iget (ap_hw a) n with Some t => hw_binds t | None => n end) | _ => KSoft end) p ar).
  { destruct (iget (ap_hw a) n) as [t|] eqn:E; [intros [= <- <- <-]; constructor; now apply iget_in|]. destruct (iget (ap_sw a) n) as [t|] eqn:E'; [|discriminate]. intros [= <- <- <-]. constructor. now apply iget_in. }
  destruct (ap_idle a) as [[m ar']|] eqn:I; [|auto]. destruct (ieq n m) eqn:M; [|auto]. apply ieq_eq in M. subst m. intros [= <- <- <-] _. now constructor.
Qed.
Lemma ctx_init n p ar : ctx_of a n = Some (FInit, p, ar) -> n = fst (ap_init a) /\ p = 0 /\ ar = mkArgs [] (snd (ap_init a)).
Proof.
  unfold ctx_of. destruct (ieq n (fst (ap_init a))) eqn:E; [apply ieq_eq in E; intros [= <- <-]; auto|].
  destruct (ap_idle a) as [[m ar']|]; [destruct (ieq n m); [discriminate|]|]; destruct (iget (ap_hw a) n); try discriminate; destruct (iget (ap_sw a) n); discriminate.
Qed.
Lemma task_ctx n k p ar : is_task a n k p ar -> ctx_of a n = Some (match k with KIdle => FIdle | KHard _ => FHard | KSoft => FSoft end, p, ar).
Proof.
  intros T. pose proof wf_x as W. assert (NI : ieq n (fst (ap_init a)) = false). { destruct (ieq n (fst (ap_init a))) eqn:E; [|reflexivity]. apply ieq_eq in E. subst n. destruct (init_not_task W T). }
  unfold ctx_of. rewrite NI. pose proof (wf_names W) as N. inversion N as [|? ? _ N']; subst. inversion T as [m ar' I|m t I|m t I]; subst.
  - now rewrite I, ieq_refl.
  - assert (NN : forall m ar', ap_idle a = Some (m, ar') -> ieq n m = false). { intros m ar' Ei. destruct (ieq n m) eqn:E; [|reflexivity]. apply ieq_eq in E. subst m. unfold idle_names in N'. rewrite Ei in N'. cbn in N'. inversion N' as [|? ? X _]; subst. destruct X. apply in_or_app. left. apply in_map_iff. now exists (n, t). }
    apply NoDup_app_inv in N' as (_ & N' & _). apply NoDup_app_inv in N' as (N1 & _ & _). rewrite (@iget_NoDup _ _ _ _ N1 I). destruct (ap_idle a) as [[m ar']|] eqn:Ei; [rewrite (NN m ar' eq_refl)|]; reflexivity.
  - assert (NN : forall m ar', ap_idle a = Some (m, ar') -> ieq n m = false). { intros m ar' Ei. destruct (ieq n m) eqn:E; [|reflexivity]. apply ieq_eq in E. subst m. unfold idle_names in N'. rewrite Ei in N'. cbn in N'. inversion N' as [|? ? X _]; subst. destruct X. apply in_or_app. right. apply in_map_iff. now exists (n, t). }
    apply NoDup_app_inv in N' as (_ & N' & _). apply NoDup_app_inv in N' as (_ & N2 & D). rewrite (@iget_NoDup _ _ _ _ N2 I).
    assert (G : iget (ap_hw a) n = None). { destruct (iget (ap_hw a) n) as [t'|] eqn:E; [|reflexivity]. apply iget_in in E. destruct (D n); apply in_map_iff; [now exists (n, t')|now exists (n, t)]. }
    rewrite G. destruct (ap_idle a) as [[m ar']|] eqn:Ei; [rewrite (NN m ar' eq_refl)|]; reflexivity.
Qed.

Lemma places_NoDup n k p ar : ctx_of a n = Some (k, p, ar) -> NoDup (ctx_places a n ar).
Proof.
  intros C. pose proof wf_x as W. assert (ND : NoDup (map fst (a_shared ar)) /\ NoDup (map fst (a_local ar))).
  { destruct k; [|refine (wf_args W (@ctx_task _ _ _ _ C _)); discriminate ..]. apply ctx_init in C as (-> & _ & ->). cbn. split; [constructor|apply (wf_init_nd W)]. }
  destruct ND as [N1 N2]. unfold ctx_places. apply NoDup_app_intro.
  - unfold local_places. induction (a_local ar) as [|[r t] l IH]; cbn in *; [constructor|]. inversion N2; subst. constructor; [|auto]. rewrite in_map_iff. intros ([r' t'] & E & I). apply H1. apply in_map_iff. exists (r', t'). split; [|assumption].
    destruct t, t'; cbn in E |- *; congruence.
  - unfold shared_places. clear N2. induction (a_shared ar) as [|[r ac] l IH]; cbn in *; [constructor|]. inversion N1; subst. destruct (is_excl ac && lock_free a r); [|auto]. cbn. constructor; [|auto]. rewrite in_map_iff. intros ([r' ac'] & E & I). injection E as ->. apply filter_In in I as [I _]. apply H1. apply in_map_iff. now exists (r, ac').
  - intros q Q1 Q2. unfold local_places in Q1. unfold shared_places in Q2. apply in_map_iff in Q1 as ([r t] & <- & _). apply in_map_iff in Q2 as (? & E & _). destruct t; discriminate.
Qed.

Lemma places_apart n k p ar n' k' p' ar' q : ctx_of a n = Some (k, p, ar) -> ctx_of a n' = Some (k', p', ar') -> In q (ctx_places a n ar) -> In q (ctx_places a n' ar') -> n <> n' ->
  k = FHard /\ k' = FHard /\ p = p'.
Proof.
  intros C C' Q Q' NE. pose proof wf_x as W. destruct (@expand_accepted _ _ _ _ Hx) as [a0 A].
  unfold ctx_places in Q, Q'. apply in_app_iff in Q, Q'.
  assert (L : forall n k p ar r, ctx_of a n = Some (k, p, ar) -> In (r, External) (a_local ar) -> uses_local items n p r).
  { intros m kk pp aa r Cm I. assert (kk <> FInit). { intros ->. apply ctx_init in Cm as (_ & _ & ->). cbn in I. apply (wf_init W) in I. discriminate. } pose proof (@ctx_task _ _ _ _ Cm H) as T. destruct aa as [sh lo]. apply is_task_x in T. cbn in I. unfold uses_local. eauto 8. }
  assert (S : forall n k p ar r ac, ctx_of a n = Some (k, p, ar) -> In (r, ac) (a_shared ar) -> exists k', (match k' with KIdle => FIdle | KHard _ => FHard | KSoft => FSoft end = k) /\ exists lo, src_task items n k' p (a_shared ar) lo).
  { intros m kk pp aa r ac Cm I. assert (kk <> FInit). { intros ->. apply ctx_init in Cm as (_ & _ & ->). destruct I. } pose proof (@ctx_task _ _ _ _ Cm H) as T. destruct aa as [sh lo]. apply is_task_x in T. exists (match kk with FIdle => KIdle | FHard => KHard (match iget (ap_hw a) m with Some t => hw_binds t | None => m end) | _ => KSoft end). split; [now destruct kk|]. exists lo. exact T. }
  destruct Q as [Q|Q]; [|destruct Q' as [Q'|Q']].
  - unfold local_places in Q. apply in_map_iff in Q as ([r t] & <- & I). destruct Q' as [Q'|Q'].
    + unfold local_places in Q'. apply in_map_iff in Q' as ([r' t'] & E & I'). destruct t, t'; cbn in E; try discriminate; [|congruence]. injection E as ->.
      destruct (@local_one _ _ _ _ _ A _ _ _ _ _ (L _ _ _ _ _ C I) (L _ _ _ _ _ C' I')). congruence.
    + unfold shared_places in Q'. apply in_map_iff in Q' as (? & E & _). destruct t; discriminate.
  - unfold local_places in Q'. unfold shared_places in Q. apply in_map_iff in Q' as ([r t] & <- & _). apply in_map_iff in Q as (? & E & _). destruct t; discriminate.
  - unfold shared_places in Q, Q'. apply in_map_iff in Q as ([r ac] & <- & I). apply in_map_iff in Q' as ([r' ac'] & E & I'). injection E as ->. cbn [fst] in *. apply filter_In in I as [I F], I' as [I' _]. cbn [fst snd] in F.
    apply andb_true_iff in F as [_ F]. unfold lock_free in F. destruct (iget (ap_shared a) r) as [s|] eqn:G; [|discriminate]. apply iget_in in G.
    assert (SF : shared_field items r s). { apply (pd_shared (ac_parsed A)). unfold a in G. now rewrite (acc_shared A) in G. }
    destruct (lock_free_ok A SF F) as [LS LP]. destruct (S _ _ _ _ _ _ C I) as (k1 & E1 & lo1 & T1). destruct (S _ _ _ _ _ _ C' I') as (k2 & E2 & lo2 & T2).
    pose proof (LS _ _ _ _ _ _ T1 I) as NS1. pose proof (LS _ _ _ _ _ _ T2 I') as NS2.
    assert (PP : p = p'). { apply (LP n p ac n' p' ac'); unfold uses_shared; eauto 8. } subst p'.
    assert (T1' := T1). assert (T2' := T2). apply is_task_x in T1', T2'. destruct (wf_prio W T1') as [_ W1]. destruct (wf_prio W T2') as [_ W2].
    destruct k1 as [|b1|], k2 as [|b2|]; try congruence; subst k k'.
    + inversion T1'; inversion T2'; subst. congruence.
    + specialize (W2 b2 eq_refl). inversion T1'; subst. lia.
    + specialize (W1 b1 eq_refl). inversion T2'; subst. lia.
    + auto.
Qed.
End App.

Lemma keep_places l i f : map rf_place (keep l i f) = map rf_place l.
Proof. induction l as [|g l IH]; cbn [keep map]; [reflexivity|]. rewrite IH. now destruct (_ && _). Qed.
Lemma keep_in l i h f : In f (keep l i h) -> exists g, In g l /\ rf_run f = rf_run g /\ rf_task f = rf_task g /\ rf_place f = rf_place g /\ (rf_kept f = rf_kept g \/ (rf_run g = i /\ rf_kept f = true)).
Proof.
  induction l as [|g l IH]; cbn [keep]; intros I; [destruct I|]. destruct I as [<-|I]; [|destruct (IH I) as (g' & I' & R); exists g'; split; [now right|exact R]].
  exists g. split; [now left|]. destruct ((rf_run g =? i) && h (rf_place g)) eqn:E; cbn; repeat split; auto. apply andb_true_iff in E as [E _]. apply Nat.eqb_eq in E. auto.
Qed.
Lemma NoDup_map_filter {X Y} (f : X -> Y) (g : X -> bool) l : NoDup (map f l) -> NoDup (map f (filter g l)).
Proof.
  induction l as [|y l IH]; cbn; intros N; [constructor|]. inversion N; subst. destruct (g y); [|auto]. cbn. constructor; [|auto]. rewrite in_map_iff. intros (z & E & I). apply H1. apply filter_In in I as [I _]. apply in_map_iff. now exists z.
Qed.
Lemma NoDup_map_inj {X Y} (f : X -> Y) l u v : NoDup (map f l) -> In u l -> In v l -> f u = f v -> u = v.
Proof.
  induction l as [|y l IH]; cbn; intros N U V E; [destruct U|]. inversion N; subst. destruct U as [<-|U], V as [<-|V]; auto.
  - destruct H1. apply in_map_iff. now exists v.
  - destruct H1. apply in_map_iff. now exists u.
Qed.

Section Inv.
Variables (b : bkind) (disp : list ident) (items : list item) (x : expansion).
Hypothesis Hx : expand b disp items = Some x.
Variable fns : ident -> pfn.
Let a := x_app x.
Hypothesis Hb : builds a fns.

Record rinv (s : rst) : Prop := mkInv {
  v_ids : forall u, In u (r_runs s) -> ru_id u < r_next s;
  v_nd : NoDup (map ru_id (r_runs s));
  v_ctx : forall u, In u (r_runs s) -> exists ar, ctx_of a (ru_task u) = Some (ru_kind u, ru_prio u, ar);
  v_task : NoDup (map ru_task (r_runs s));
  v_hard : forall u v, In u (r_runs s) -> In v (r_runs s) -> ru_kind u = FHard -> ru_kind v = FHard -> ru_prio u = ru_prio v -> u = v;
  v_ref : forall f, In f (r_refs s) -> rf_run f < r_next s /\ exists k p ar, ctx_of a (rf_task f) = Some (k, p, ar) /\ In (rf_place f) (ctx_places a (rf_task f) ar) /\
    (rf_kept f = true -> field_static k (fns (rf_task f)) = true) /\
    ((exists u, In u (r_runs s) /\ ru_id u = rf_run f /\ ru_task u = rf_task f) \/ (rf_kept f = true /\ runs_once k = true));
  v_init : forall t, (exists u, In u (r_runs s) /\ ru_task u = t) \/ (exists f, In f (r_refs s) /\ rf_task f = t) ->
    (forall p ar, ctx_of a t = Some (FInit, p, ar) -> r_phase s <> Reset) /\ (forall p ar, ctx_of a t = Some (FIdle, p, ar) -> r_idle s = true);
  v_idle : r_idle s = true -> r_phase s = Started;
  v_nodup : NoDup (map rf_place (r_refs s))
}.

Lemma begin_inv s t k p ar : rinv s -> ctx_of a t = Some (k, p, ar) ->
  (forall u, In u (r_runs s) -> ru_task u <> t) ->
  (k = FHard -> forall u, In u (r_runs s) -> ru_kind u = FHard -> ru_prio u < p) ->
  (runs_once k = true -> forall f, In f (r_refs s) -> rf_task f <> t) ->
  (k = FInit -> r_phase s <> Reset) -> (k = FIdle -> r_idle s = true) ->
  rinv (begin a s t k p ar).
Proof.
  intros [I1 I2 I3 I4 I5 I6 I7 I8 I9] C NT NH NO PI PD. unfold begin. split; cbn [r_phase r_idle r_next r_runs r_refs].
  - intros u [<-|U]; cbn; [lia|]. specialize (I1 u U). lia.
  - cbn. constructor; [|assumption]. rewrite in_map_iff. intros (u & E & U). specialize (I1 u U). lia.
  - intros u [<-|U]; cbn; [eauto|]. now apply I3.
  - cbn. constructor; [|assumption]. rewrite in_map_iff. intros (u & E & U). now apply (NT u U).
  - intros u v [<-|U] [<-|V] KU KV E; cbn in *; auto.
    + specialize (NH KU v V KV). lia.
    + specialize (NH KV u U KU). lia.
  - intros f F. apply in_app_iff in F as [F|F].
    + apply in_map_iff in F as (q & <- & Q). cbn. split; [lia|]. exists k, p, ar. split; [assumption|]. split; [assumption|]. split; [discriminate|]. left. exists (mkRun (r_next s) t k p). cbn. auto.
    + destruct (I6 f F) as (L & k' & p' & ar' & C' & Q & K & R). split; [lia|]. exists k', p', ar'. repeat split; auto. destruct R as [(u & U & R)|R]; [left; exists u; split; [now right|exact R]|now right].
  - intros t' H. assert (D : t' = t \/ ((exists u, In u (r_runs s) /\ ru_task u = t') \/ (exists f, In f (r_refs s) /\ rf_task f = t'))).
    { destruct H as [(u & [<-|U] & E)|(f & F & E)]; [now left|right; left; eauto|]. apply in_app_iff in F as [F|F]; [|right; right; eauto]. apply in_map_iff in F as (q & <- & _). now left. }
    destruct D as [->|D]; [|exact (I7 t' D)]. split; intros p' ar' C'; assert (X := C'); rewrite C in X; injection X as -> -> ->; auto.
  - exact I8.
  - rewrite map_app, map_map. cbn. rewrite map_id. apply NoDup_app_intro; [exact (@places_NoDup _ _ _ _ Hx _ _ _ _ C)|assumption|]. intros q Q Q'. apply in_map_iff in Q' as (f & <- & F).
    destruct (I6 f F) as (_ & k' & p' & ar' & C' & QF & K & R). assert (D : rf_task f = t \/ t <> rf_task f). { destruct (ieq (rf_task f) t) eqn:E; [apply ieq_eq in E; auto|right; intros ->; now rewrite ieq_refl in E]. }
    destruct D as [D|D].
    + rewrite D in *. assert (X := C'). rewrite C in X. injection X as <- <- <-. destruct R as [(u & U & _ & E)|[_ O]]; [now apply (NT u U)|]. now apply (NO O f F).
    + destruct (@places_apart _ _ _ _ Hx _ _ _ _ _ _ _ _ _ C C' Q QF D) as (-> & -> & ->). destruct R as [(u & U & _ & E)|[_ O]]; [|discriminate].
      destruct (I3 u U) as [ar2 C2]. rewrite E, C' in C2. injection C2 as K2 P2 _. specialize (NH eq_refl u U (eq_sym K2)). lia.
Qed.

Lemma finish_inv s i u : rinv s -> In u (r_runs s) -> ru_id u = i -> (runs_once (ru_kind u) = true \/ field_static (ru_kind u) (fns (ru_task u)) = false) -> rinv (finish s i).
Proof.
  intros [I1 I2 I3 I4 I5 I6 I7 I8 I9] U Eu NS. unfold finish. split; cbn [r_phase r_idle r_next r_runs r_refs].
  - intros v V. apply filter_In in V as [V _]. auto.
  - now apply NoDup_map_filter.
  - intros v V. apply filter_In in V as [V _]. auto.
  - now apply NoDup_map_filter.
  - intros v w V W. apply filter_In in V as [V _], W as [W _]. auto.
  - intros f F. apply filter_In in F as [F G]. destruct (I6 f F) as (L & k & p & ar & C & Q & K & R). split; [assumption|]. exists k, p, ar. repeat split; auto. destruct R as [(v & V & E1 & E2)|R]; [|now right].
    destruct (Nat.eq_dec (ru_id v) i) as [E|E].
    + right. assert (v = u) by (apply (@NoDup_map_inj _ _ ru_id (r_runs s)); congruence). subst v. rewrite <- E1, E, Nat.eqb_refl in G. cbn in G. split; [assumption|].
      destruct (I3 u U) as [ar2 C2]. rewrite E2, C in C2. injection C2 as Ek _ _. rewrite <- Ek in NS. destruct NS as [NS|NS]; [assumption|]. rewrite E2 in NS. rewrite (K G) in NS. discriminate.
    + left. exists v. split; [|auto]. apply filter_In. split; [assumption|]. apply negb_true_iff. now apply Nat.eqb_neq.
  - intros t H. apply I7. destruct H as [(v & V & E)|(f & F & E)]; [left; apply filter_In in V as [V _]; eauto|right; apply filter_In in F as [F _]; eauto].
  - exact I8.
  - now apply NoDup_map_filter.
Qed.

Lemma phase_inv s p i : rinv s -> (p = Reset -> r_phase s = Reset) -> (r_idle s = true -> i = true) -> (i = true -> p = Started) -> rinv (with_phase s p i).
Proof.
  intros [I1 I2 I3 I4 I5 I6 I7 I8 I9] P D Q. split; cbn [with_phase r_phase r_idle r_next r_runs r_refs]; auto. intros t H. destruct (I7 t H) as [A B]. split; [|eauto]. intros p' ar C E. exact (A p' ar C (P E)).
Qed.
Lemma find_run_in s i u : find_run s i = Some u -> In u (r_runs s) /\ ru_id u = i.
Proof. unfold find_run. intros F. apply find_some in F as [F E]. split; [assumption|]. now apply Nat.eqb_eq. Qed.

Lemma rustc n k p ar : ctx_of a n = Some (k, p, ar) -> rustc_ok k (fns n) = true. Proof. intros C. exact (proj2 (Hb _ C)). Qed.
Lemma hard_bound n p ar : ctx_of a n = Some (FHard, p, ar) -> field_static FHard (fns n) = false.
Proof. intros C. apply rustc in C. unfold rustc_ok in C. rewrite andb_true_r in C. cbn [infers_lifetime] in C. rewrite orb_false_r in C. apply negb_true_iff in C. exact C. Qed.
Lemma soft_bound n p ar : ctx_of a n = Some (FSoft, p, ar) -> never_ready (fns n) = false -> field_static FSoft (fns n) = false.
Proof.
  intros C B. apply rustc in C. unfold rustc_ok in C. apply andb_true_iff in C as [C D]. apply andb_true_iff in D as [D _]. unfold field_static. cbn [runs_once orb]. cbn [infers_lifetime] in C. unfold never_ready, wants_static in *.
  destruct (pf_extern (fns n)); [|assumption]. cbn [negb andb orb] in C, D. rewrite B, orb_false_r in D. apply negb_true_iff in D. rewrite D, orb_false_r in C. now apply negb_true_iff in C.
Qed.

Lemma rinv0 : rinv rs0.
Proof. split; cbn; try tauto; try apply NoDup_nil; try discriminate. intros t0 [(u & [] & _)|(f & [] & _)]. Qed.

Lemma running_false s t : running s t = false -> forall u, In u (r_runs s) -> ru_task u <> t.
Proof. unfold running. intros R u U E. assert (X : existsb (fun u => ieq (ru_task u) t) (r_runs s) = true); [|congruence]. apply existsb_exists. exists u. split; [assumption|]. now apply ieq_eq. Qed.

Lemma lent_inv s l : rinv s -> rinv (mkRs (r_phase s) (r_idle s) (r_next s) (r_runs s) (r_refs s) l (r_token s)).
Proof. intros [I1 I2 I3 I4 I5 I6 I7 I8 I9]. split; assumption. Qed.

Lemma rstep_inv s l s' : rinv s -> rstep a fns s l = Some s' -> rinv s'.
Proof.
  intros I H. destruct l as [| | |t|i|t lend|i|i q|]; cbn [rstep] in H.
  - destruct (r_phase s) eqn:P; try discriminate. destruct (ctx_of a (fst (ap_init a))) as [[[[| | |] p] ar]|] eqn:C; try discriminate. injection H as <-.
    assert (NI : forall t, (exists u, In u (r_runs s) /\ ru_task u = t) \/ (exists f, In f (r_refs s) /\ rf_task f = t) -> t <> fst (ap_init a)). { intros t' D ->. destruct (v_init I D) as [A _]. exact (A p ar C P). }
    apply begin_inv; auto; try discriminate; cbn [with_phase r_runs r_refs r_phase].
    + apply phase_inv; auto; try discriminate. intros D. apply (v_idle I) in D. congruence.
    + intros u U. apply NI. eauto.
    + intros _ f F. apply NI. eauto.
  - destruct (r_phase s) eqn:P; try discriminate. destruct (find _ _) as [u|] eqn:F; [|discriminate]. injection H as <-. apply find_some in F as [F K]. apply phase_inv; auto; try discriminate.
    + apply (@finish_inv s (ru_id u) u); auto. left. destruct (ru_kind u); auto; discriminate.
    + cbn. intros D. apply (v_idle I) in D. congruence.
  - destruct (r_phase s) eqn:P; try discriminate. destruct (r_idle s) eqn:D; try discriminate. destruct (ap_idle a) as [[n ar]|] eqn:Ei; [|discriminate]. injection H as <-.
    assert (C : ctx_of a n = Some (FIdle, 0, ar)) by (apply (@task_ctx _ _ _ _ Hx n KIdle 0 ar); now constructor).
    assert (NI : forall t, (exists u, In u (r_runs s) /\ ru_task u = t) \/ (exists f, In f (r_refs s) /\ rf_task f = t) -> t <> n). { intros t' D' ->. destruct (v_init I D') as [_ A]. rewrite (A 0 ar C) in D. discriminate. }
    apply begin_inv; auto; try discriminate; cbn [with_phase r_runs r_refs r_phase].
    + apply phase_inv; auto; discriminate.
    + intros u U. apply NI. eauto.
    + intros _ f F. apply NI. eauto.
  - destruct (r_phase s) eqn:P; try discriminate. destruct (ctx_of a t) as [[[[| | |] p] ar]|] eqn:C; try discriminate. destruct (forallb _ _) eqn:G; [|discriminate]. injection H as <-. rewrite forallb_forall in G.
    assert (LT : forall u, In u (r_runs s) -> ru_kind u = FHard -> ru_prio u < p). { intros u U K. specialize (G u U). rewrite K in G. cbn in G. now apply Nat.ltb_lt. }
    apply begin_inv; auto; try discriminate. intros u U E. destruct (v_ctx I u U) as [ar' C']. rewrite E, C in C'. injection C' as K Pu _. specialize (LT u U (eq_sym K)). lia.
  - destruct (find_run s i) as [u|] eqn:F; [|discriminate]. destruct (is_hard (ru_kind u)) eqn:K; [|discriminate]. injection H as <-. apply find_run_in in F as [U E]. apply (@finish_inv s i u); auto. right.
    destruct (v_ctx I u U) as [ar C]. destruct (ru_kind u); try discriminate. exact (@hard_bound _ _ _ C).
  - assert (B : forall p ar, ctx_of a t = Some (FSoft, p, ar) -> running s t = false -> rinv (begin a s t FSoft p ar)). { intros p ar C R. apply begin_inv; auto; try discriminate. now apply running_false. }
    assert (X : forall p ar, ctx_of a t = Some (FSoft, p, ar) -> (if running s t then Some s else match lend with None => Some (begin a s t FSoft p ar) | Some j =>
      if erases (fns t) && negb (static_inputs (fns t)) && (match find_run s j with Some _ => true | None => false end) then
        Some (mkRs (r_phase (begin a s t FSoft p ar)) (r_idle (begin a s t FSoft p ar)) (r_next (begin a s t FSoft p ar)) (r_runs (begin a s t FSoft p ar)) (r_refs (begin a s t FSoft p ar)) ((r_next s, j) :: r_lent (begin a s t FSoft p ar)) (r_token (begin a s t FSoft p ar))) else None end) = Some s' -> rinv s').
    { intros p ar C E. destruct (running s t) eqn:R; [now injection E as <-|]. destruct lend as [j|]; [|injection E as <-; auto]. destruct (_ && _); [|discriminate]. injection E as <-. apply lent_inv with (s := begin a s t FSoft p ar). auto. }
    destruct (r_phase s) eqn:P; try discriminate; destruct (ctx_of a t) as [[[[| | |] p] ar]|] eqn:C; try discriminate; exact (X p ar eq_refl H).
  - destruct (find_run s i) as [u|] eqn:F; [|discriminate]. destruct (ru_kind u) eqn:K; try discriminate. destruct (never_ready (fns (ru_task u))) eqn:B; [discriminate|]. injection H as <-. apply find_run_in in F as [U E]. apply (@finish_inv s i u); auto. right.
    destruct (v_ctx I u U) as [ar C]. rewrite K in *. exact (@soft_bound _ _ _ C B).
  - destruct (find_run s i) as [u|] eqn:F; [|discriminate]. destruct (field_static (ru_kind u) (fns (ru_task u))) eqn:S; [|discriminate]. injection H as <-. apply find_run_in in F as [U E]. destruct I as [I1 I2 I3 I4 I5 I6 I7 I8 I9].
    split; cbn [r_phase r_idle r_next r_runs r_refs]; auto.
    + intros f Hf. apply keep_in in Hf as (g & G & E1 & E2 & E3 & D). destruct (I6 g G) as (L & k & p & ar & C & Q & K & R). rewrite E1, E2, E3. split; [assumption|]. exists k, p, ar. split; [assumption|]. split; [assumption|]. split.
      * destruct D as [D|[D _]]; [rewrite D; auto|]. intros _. destruct R as [(v & V & R1 & R2)|[R1 R2]]; [|auto]. assert (v = u) by (apply (@NoDup_map_inj _ _ ru_id (r_runs s)); congruence). subst v.
        destruct (I3 u U) as [ar2 C2]. rewrite R2, C in C2. injection C2 as -> _ _. now rewrite <- R2.
      * destruct R as [R|[R1 R2]]; [now left|]. right. split; [|assumption]. destruct D as [D|[_ D]]; congruence.
    + intros t H. apply I7. destruct H as [?|(f & Ff & E2)]; [now left|right]. apply keep_in in Ff as (g & G & _ & E3 & _). exists g. split; [assumption|congruence].
    + now rewrite keep_places.
  - destruct (r_phase s) eqn:P; try discriminate. destruct (wants_static _ _); [|discriminate]. injection H as <-. destruct I as [I1 I2 I3 I4 I5 I6 I7 I8 I9]. rewrite P in *. split; assumption.
Qed.
Lemma reach_rinv s : reach (rstep a fns) rs0 s -> rinv s.
Proof. intros R. refine (@reach_inv _ _ (rstep a fns) rinv _ rinv0 _ s R). exact rstep_inv. Qed.
End Inv.

(** Arguments and init's token. *)
Section More.
Variables (a : app) (fns : ident -> pfn).
Definition linv (s : rst) : Prop :=
  (forall u, In u (r_runs s) -> ru_id u < r_next s) /\
  (forall h l, In (h, l) (r_lent s) -> h < r_next s /\ forall u, In u (r_runs s) -> ru_id u = h -> erases (fns (ru_task u)) = true /\ static_inputs (fns (ru_task u)) = false) /\
  (r_token s = true -> wants_static FInit (fns (fst (ap_init a))) = true).
Lemma begin_linv s t k p ar : linv s -> linv (begin a s t k p ar).
Proof.
  intros (A & B & C). split; [|split]; cbn [begin r_runs r_next r_lent r_token]; auto.
  - intros u [<-|U]; cbn; [lia|]. specialize (A u U). lia.
  - intros h l H. destruct (B h l H) as [B1 B2]. split; [lia|]. intros u [<-|U] E; cbn in E; [lia|auto].
Qed.
Lemma linv_ext s s' : linv s -> incl (r_runs s') (r_runs s) -> r_next s' = r_next s -> r_lent s' = r_lent s -> r_token s' = r_token s -> linv s'.
Proof. intros (A & B & C) R N L T. unfold linv. rewrite N, L, T. split; [intros u U; apply A, R, U|split; [|exact C]]. intros h l H. destruct (B h l H) as [B1 B2]. split; [assumption|]. intros u U. apply B2, R, U. Qed.
Lemma incl_filter {X} (f : X -> bool) l : incl (filter f l) l. Proof. intros y Y. now apply filter_In in Y. Qed.
Lemma finish_linv s i : linv s -> linv (finish s i).
Proof. intros L. apply linv_ext with (1 := L); try reflexivity. apply incl_filter. Qed.
Lemma phase_linv s p i : linv s -> linv (with_phase s p i).
Proof. intros L. apply linv_ext with (1 := L); try reflexivity. apply incl_refl. Qed.
Lemma lend_linv s t p ar j : linv s -> erases (fns t) = true -> static_inputs (fns t) = false ->
  linv (mkRs (r_phase (begin a s t FSoft p ar)) (r_idle (begin a s t FSoft p ar)) (r_next (begin a s t FSoft p ar)) (r_runs (begin a s t FSoft p ar)) (r_refs (begin a s t FSoft p ar)) ((r_next s, j) :: r_lent (begin a s t FSoft p ar)) (r_token (begin a s t FSoft p ar))).
Proof.
  intros L E S. pose proof (begin_linv t FSoft p ar L) as (A & B & C). split; [exact A|split; [|exact C]]. cbn [r_runs r_next r_lent]. intros h l [[= <- <-]|H]; [|exact (B h l H)]. split; [cbn; lia|].
  intros u [<-|U] Eu; cbn in Eu |- *; [auto|]. destruct L as (A0 & _). specialize (A0 u U). lia.
Qed.
Lemma linv0 : linv rs0. Proof. split; [|split]; cbn; try tauto; discriminate. Qed.
Lemma rstep_linv s l s' : linv s -> rstep a fns s l = Some s' -> linv s'.
Proof.
  intros I H. destruct l as [| | |t|i|t lend|i|i q|]; cbn [rstep] in H.
  - destruct (r_phase s); try discriminate. destruct (ctx_of a (fst (ap_init a))) as [[[[| | |] p] ar]|]; try discriminate. injection H as <-. apply begin_linv. now apply phase_linv.
  - destruct (r_phase s); try discriminate. destruct (find _ _) as [u|]; [|discriminate]. injection H as <-. apply phase_linv. now apply finish_linv.
  - destruct (r_phase s); try discriminate. destruct (r_idle s); try discriminate. destruct (ap_idle a) as [[n ar]|]; [|discriminate]. injection H as <-. apply begin_linv. now apply phase_linv.
  - destruct (r_phase s); try discriminate. destruct (ctx_of a t) as [[[[| | |] p] ar]|]; try discriminate. destruct (forallb _ _); [|discriminate]. injection H as <-. now apply begin_linv.
  - destruct (find_run s i) as [u|]; [|discriminate]. destruct (is_hard (ru_kind u)); [|discriminate]. injection H as <-. now apply finish_linv.
  - assert (X : forall p ar, (if running s t then Some s else match lend with None => Some (begin a s t FSoft p ar) | Some j =>
      if erases (fns t) && negb (static_inputs (fns t)) && (match find_run s j with Some _ => true | None => false end) then
        Some (mkRs (r_phase (begin a s t FSoft p ar)) (r_idle (begin a s t FSoft p ar)) (r_next (begin a s t FSoft p ar)) (r_runs (begin a s t FSoft p ar)) (r_refs (begin a s t FSoft p ar)) ((r_next s, j) :: r_lent (begin a s t FSoft p ar)) (r_token (begin a s t FSoft p ar))) else None end) = Some s' -> linv s').
    { intros p ar E. destruct (running s t) eqn:R; [now injection E as <-|]. destruct lend as [j|]; [|injection E as <-; now apply begin_linv]. destruct (erases (fns t)) eqn:Q1; [|discriminate]. destruct (static_inputs (fns t)) eqn:Q2; [discriminate|].
      destruct (find_run s j); [|discriminate]. cbn [andb negb] in E. injection E as <-. now apply lend_linv. }
    destruct (r_phase s); try discriminate; destruct (ctx_of a t) as [[[[| | |] p] ar]|]; try discriminate; exact (X p ar H).
  - destruct (find_run s i) as [u|]; [|discriminate]. destruct (ru_kind u); try discriminate. destruct (never_ready _); [discriminate|]. injection H as <-. now apply finish_linv.
  - destruct (find_run s i) as [u|]; [|discriminate]. destruct (field_static _ _); [|discriminate]. injection H as <-. apply linv_ext with (1 := I); try reflexivity. apply incl_refl.
  - destruct (r_phase s); try discriminate. destruct (wants_static _ _) eqn:W; [|discriminate]. injection H as <-. destruct I as (A & B & C). split; [exact A|]. split; [exact B|]. intros _. exact W.
Qed.
Lemma reach_linv s : reach (rstep a fns) rs0 s -> linv s.
Proof. intros R. refine (@reach_inv _ _ (rstep a fns) linv _ linv0 _ s R). exact rstep_linv. Qed.
End More.

(** [builds], decided. *)
Definition builds_b (a : app) (fns : ident -> pfn) : bool :=
  forallb (fun n => match ctx_of a n with
                    | Some (k, _, _) => (match fn_parse k (pf_extern (fns n)) n (pf_sig (fns n)) with Some _ => true | None => false end) && rustc_ok k (fns n)
                    | None => true end) (fst (ap_init a) :: idle_names a ++ map fst (ap_hw a) ++ map fst (ap_sw a)).
Lemma builds_b_ok a fns : builds_b a fns = true -> builds a fns.
Proof.
  intros B n k p ar C. unfold builds_b in B. rewrite forallb_forall in B. assert (I : In n (fst (ap_init a) :: idle_names a ++ map fst (ap_hw a) ++ map fst (ap_sw a))).
  { revert C. unfold ctx_of. destruct (ieq n (fst (ap_init a))) eqn:E; [apply ieq_eq in E; subst; intros _; now left|]. intros C. right. apply in_or_app.
    assert (R : match iget (ap_hw a) n with Some t => Some (FHard, hw_prio t, hw_args t) | None => match iget (ap_sw a) n with Some t => Some (FSoft, sw_prio t, sw_args t) | None => None end end = Some (k, p, ar) -> In n (map fst (ap_hw a) ++ map fst (ap_sw a))).
    { destruct (iget (ap_hw a) n) as [t|] eqn:E1; [intros _; apply in_or_app; left; apply in_map_iff; exists (n, t); split; [reflexivity|now apply iget_in]|]. destruct (iget (ap_sw a) n) as [t|] eqn:E2; [|discriminate]. intros _. apply in_or_app. right. apply in_map_iff. exists (n, t). split; [reflexivity|now apply iget_in]. }
    unfold idle_names. destruct (ap_idle a) as [[m ar']|]; [|auto]. destruct (ieq n m) eqn:M; [apply ieq_eq in M; subst; left; now left|auto]. }
  specialize (B n I). rewrite C in B. apply andb_true_iff in B as [B1 B2]. split; [|assumption]. destruct (fn_parse _ _ _ _); congruence.
Qed.

(** ** Types that borrow *)
Lemma lt_static_false l : ieq l "static" = false <-> l <> "static".
Proof. rewrite <- ieq_eq. destruct (ieq l "static"); split; congruence. Qed.
Lemma forallb_false {A} (f : A -> bool) l : forallb f l = false -> exists y, In y l /\ f y = false.
Proof. induction l as [|y l IH]; cbn [forallb]; [discriminate|]. destruct (f y) eqn:E; [intros H; destruct (IH H) as (z & I & Z); exists z; split; [now right|assumption]|]. intros _. exists y. split; [now left|assumption]. Qed.
Lemma forallb_false_intro {A} (f : A -> bool) l y : In y l -> f y = false -> forallb f l = false.
Proof. intros I E. destruct (forallb f l) eqn:F; [|reflexivity]. rewrite forallb_forall in F. specialize (F y I). congruence. Qed.
Lemma not_static_borrows : forall t, ty_static t = false -> borrows t.
Proof.
  fix IH 1. intros [|l|q c l|[lt|]|k]; cbn [ty_static]; try discriminate.
  - intros H. assert (X : forall l', forallb ty_static l' = false -> exists t, In t l' /\ borrows t).
    { clear H l. fix IHl 1. intros [|t l']; cbn [forallb]; [discriminate|]. destruct (ty_static t) eqn:E.
      - intros H. destruct (IHl l' H) as (t' & I & B). exists t'. split; [now right|exact B].
      - intros _. exists t. split; [now left|]. apply IH. exact E. }
    destruct (X l H) as (t & I & B). now apply B_tuple with t.
  - intros H. apply forallb_false in H as (sg & I & H). destruct (sg_args sg) as [|g|] eqn:E; try discriminate.
    apply forallb_false in H as ([lt|] & J & H); [|discriminate]. apply lt_static_false in H. now apply B_generic with sg g lt.
  - intros H. apply B_named. now apply lt_static_false.
  - intros _. apply B_elided.
Qed.
Lemma borrows_not_static t : borrows t -> ty_static t = false.
Proof.
  induction 1 as [|l H|t l I B IH|q c segs sg g l I E J H]; cbn [ty_static].
  - reflexivity.
  - now apply lt_static_false.
  - now apply forallb_false_intro with t.
  - apply forallb_false_intro with sg; [assumption|]. rewrite E. apply forallb_false_intro with (GLt l); [assumption|]. now apply lt_static_false.
Qed.
Lemma static_inputs_false f : static_inputs f = false -> exists t, argument f t /\ borrows t.
Proof.
  unfold static_inputs. intros H. apply forallb_false in H as (t & I & H). exists t. split; [|now apply not_static_borrows]. unfold inputs_of in I.
  destruct (all_typed (tl (fs_inputs (pf_sig f)))) as [l|] eqn:E; [|destruct I]. apply all_typed_some in E. destruct (fs_inputs (pf_sig f)) as [|c r] eqn:F; cbn [tl] in E; [destruct l; [destruct I|discriminate]|]. exists c, l. split; [now rewrite F, E|assumption].
Qed.
