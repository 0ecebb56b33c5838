(** The checks of the macro against the rules of AppAcceptSpec.v, and the theorem that an application is accepted
    exactly if it follows them. *)
From Coq Require Import Permutation.
From Verif Require Import Base AppModel AppSpec AppAcceptSpec AppProofs AppAnalysis AppChecks AppFinal AppAccept.
Set Implicit Arguments.

Lemma forallb_iff {V} (f : V -> bool) l : forallb f l = true <-> forall v, In v l -> f v = true.
Proof. apply forallb_forall. Qed.

Section Parsed.
Context (disp : list ident) (items : list item) (a : app) (P : parsed disp items a).
Let W := pd_wf P.
Lemma us_iff n p r ac : uses_shared items n p r ac <-> exists k ar, is_task a n k p ar /\ In (r, ac) (a_shared ar).
Proof.
  split.
  - intros (k & sh & lo & T & I). apply (pd_task P) in T. exists k, (mkArgs sh lo). auto.
  - intros (k & [sh lo] & T & I). apply (pd_task P) in T. exists k, sh, lo. auto.
Qed.
Lemma ul_iff n p r : uses_local items n p r <-> exists k ar, is_task a n k p ar /\ In (r, External) (a_local ar).
Proof.
  split.
  - intros (k & sh & lo & T & I). apply (pd_task P) in T. exists k, (mkArgs sh lo). auto.
  - intros (k & [sh lo] & T & I). apply (pd_task P) in T. exists k, sh, lo. auto.
Qed.
Lemma acc_us p r ac : In (p, r, ac) (accesses a) <-> exists n, uses_shared items n p r ac.
Proof.
  rewrite in_accesses. split.
  - intros (n & k & ar & T & I). exists n. apply us_iff. eauto.
  - intros (n & U). apply us_iff in U as (k & ar & U). exists n, k, ar. exact U.
Qed.
Lemma ihas_iff {V} (m : list (ident * V)) x : ihas m x = true <-> exists v, In (x, v) m.
Proof.
  unfold ihas. destruct (iget m x) as [v|] eqn:E.
  - split; [intros _; exists v; now apply iget_in|auto].
  - split; [discriminate|]. intros [v I]. exfalso. apply iget_none in E. apply E. apply in_map_iff. now exists (x, v).
Qed.

Lemma check_shared : forallb (fun x => ihas (ap_shared a) (snd (fst x))) (accesses a) = true <-> forall n p x ac, uses_shared items n p x ac -> exists r, shared_field items x r.
Proof.
  rewrite forallb_iff. split.
  - intros H n p x ac U. assert (I : In (p, x, ac) (accesses a)) by (apply acc_us; eauto). apply H in I. cbn [fst snd] in I. apply ihas_iff in I as [r I]. exists r. now apply (pd_shared P).
  - intros H [[p x] ac] I. apply acc_us in I as [n I]. apply H in I as [r I]. cbn [fst snd]. apply ihas_iff. exists r. now apply (pd_shared P).
Qed.
Lemma check_local : forallb (fun x => ihas (ap_local a) x) (local_accesses a) = true <-> forall n p x, uses_local items n p x -> exists t, local_field items x t.
Proof.
  rewrite forallb_iff. split.
  - intros H n p x U. assert (I : In x (local_accesses a)). { apply in_local_accesses; [exact W|]. apply ul_iff in U as (k & ar & U). exists n, k, p, ar. exact U. }
    apply H in I. apply ihas_iff in I as [r I]. exists r. now apply (pd_local P).
  - intros H x I. apply in_local_accesses in I as (n & k & p & ar & T & I); [|exact W]. apply ihas_iff. destruct (H n p x) as [t F]; [apply ul_iff; eauto|]. exists t. now apply (pd_local P).
Qed.
Lemma check_mixed : (let excl := map (fun x => snd (fst x)) (filter (fun x => is_excl (snd x)) (accesses a)) in
   forallb (fun x => negb (negb (is_excl (snd x)) && mem (snd (fst x)) excl)) (accesses a)) = true <->
  forall n p n' p' x, uses_shared items n p x Exclusive -> uses_shared items n' p' x SharedRef -> False.
Proof.
  cbv zeta. rewrite forallb_iff. split.
  - intros H n p n' p' x U U'. assert (I : In (p', x, SharedRef) (accesses a)) by (apply acc_us; eauto). apply H in I. cbn [fst snd is_excl negb andb] in I. apply negb_true_iff in I.
    assert (M : mem x (map (fun x => snd (fst x)) (filter (fun x => is_excl (snd x)) (accesses a))) = true); [|congruence].
    apply mem_in, in_map_iff. exists (p, x, Exclusive). split; [reflexivity|]. apply filter_In. split; [apply acc_us; eauto|reflexivity].
  - intros H [[p x] ac] I. cbn [fst snd]. destruct ac; [reflexivity|]. cbn [is_excl negb andb]. apply negb_true_iff. destruct (mem x _) eqn:M; [exfalso|reflexivity].
    apply mem_in, in_map_iff in M as ([[q y] ac] & E & M). cbn [fst snd] in E. subst y. apply filter_In in M as [M E]. destruct ac; [|discriminate]. apply acc_us in M as [n M]. apply acc_us in I as [n' I]. eauto.
Qed.
Lemma check_bound : forallb (fun t => negb (mem (hw_binds (snd t)) (ap_disp a))) (ap_hw a) = true <-> forall n d p sh lo, src_task items n (KHard d) p sh lo -> ~ In d disp.
Proof.
  rewrite forallb_iff, (pd_disp P). split.
  - intros H n d p sh lo T I. apply (pd_task P) in T. inversion T as [|? t G|]; subst. apply H in G. cbn [snd] in G. apply negb_true_iff in G. apply mem_in in I. congruence.
  - intros H [n t] I. cbn [snd]. apply negb_true_iff. destruct (mem _ _) eqn:M; [exfalso|reflexivity]. apply mem_in in M. assert (T : is_task a n (KHard (hw_binds t)) (hw_prio t) (mkArgs (a_shared (hw_args t)) (a_local (hw_args t)))).
    { replace (mkArgs _ _) with (hw_args t) by now destruct (hw_args t). now apply T_hw. }
    apply (pd_task P) in T. exact (H _ _ _ _ _ T M).
Qed.
Lemma soft_task n p ar : is_task a n KSoft p ar <-> exists t, In (n, t) (ap_sw a) /\ sw_prio t = p /\ sw_args t = ar.
Proof. split; [intros T; inversion T; subst; eauto|intros (t & I & <- & <-); now apply T_sw]. Qed.
Lemma src_is n k p sh lo : src_task items n k p sh lo <-> is_task a n k p (mkArgs sh lo).
Proof. apply (pd_task P). Qed.
Lemma is_src n k p ar : is_task a n k p ar -> src_task items n k p (a_shared ar) (a_local ar).
Proof. intros T. apply src_is. now destruct ar. Qed.

Lemma check_free : lf_error a = false <-> forall x r, shared_field items x r -> sr_lock_free r = true ->
    (forall n p sh lo ac, src_task items n KSoft p sh lo -> ~ In (x, ac) sh) /\
    (forall n p ac n' p' ac', uses_shared items n p x ac -> uses_shared items n' p' x ac' -> p = p').
Proof.
  rewrite (lf_error_iff W).
  assert (U : forall t x p, In (t, x, p) (all_uses a) <-> exists ac, uses_shared items t p x ac).
  { intros t x p. rewrite in_all_uses. split; [intros (k & ar & ac & T & I); exists ac; apply us_iff; eauto|intros (ac & I); apply us_iff in I as (k & ar & T & I); eauto]. }
  split.
  - intros H x r F L. apply (pd_shared P) in F. destruct (H x r F L) as [H1 H2]. split.
    + intros n p sh lo ac T I. apply src_is in T. assert (Q : In (n, x, p) (all_uses a)) by (apply in_all_uses; exists KSoft, (mkArgs sh lo), ac; auto). apply H1 in Q. apply soft_task in T as (t & G & _).
      assert (ihas (ap_sw a) n = true) by (apply ihas_iff; eauto). congruence.
    + intros n p ac n' p' ac' U1 U2. apply (H2 n p n' p'); apply U; eauto.
  - intros H x r F L. apply (pd_shared P) in F. destruct (H x r F L) as [H1 H2]. split.
    + intros t p Q. destruct (ihas (ap_sw a) t) eqn:E; [exfalso|reflexivity]. apply ihas_iff in E as [v E]. apply in_all_uses in Q as (k & ar & ac & T & I).
      destruct (task_names_unique W T (T_sw _ _ _ E)) as (-> & -> & ->). apply (H1 _ _ _ _ ac (is_src (T_sw _ _ _ E))). exact I.
    + intros t p t' p' Q Q'. apply U in Q as [ac Q], Q' as [ac' Q']. eauto.
Qed.

Lemma check_one : lr_error a = false <-> forall x t, local_field items x t ->
  (forall n p n' p', uses_local items n p x -> uses_local items n' p' x -> n = n') /\ (forall n, ~ declares items n x).
Proof.
  split.
  - intros E x t F. apply (pd_local P) in F. destruct (@local_unique a W x E) as [L1 L2]; [apply in_map_iff; now exists (x, t)|]. split.
    + intros n p n' p' U U'. apply ul_iff in U as (k & ar & T & I), U' as (k' & ar' & T' & I'). now destruct (L1 _ _ _ _ _ _ _ _ _ _ T T' I I').
    + intros n [(k & p & sh & lo & T & I)|(lo & ss & ls & I & I')].
      * apply src_is in T. destruct (L1 _ _ _ _ _ _ _ _ _ _ T T I I) as [_ Z]. discriminate.
      * apply (pd_init_only P) in I as [_ Z]. rewrite Z in I'. exact (L2 _ I').
  - intros H. apply (lr_error_iff W). intros x Ix. apply in_map_iff in Ix as ([y t] & Ey & Ix). simpl in Ey. subst y. apply (pd_local P) in Ix. destruct (H x t Ix) as [H1 H2].
    assert (Ini : forall d, ~ In (x, d) (snd (ap_init a))).
    { intros d I. assert (Z := wf_init W _ I). simpl in Z. subst d. destruct (pd_init P) as (lo & sn & ln & J & Z). rewrite Z in I. apply (H2 (fst (ap_init a))). right. eauto 6. }
    assert (Only : forall n sh lo p d, In (n, sh, lo, p) (task_list a) -> In (x, d) lo -> d = External /\ exists k ar, is_task a n k p ar /\ sh = map fst (a_shared ar) /\ lo = a_local ar).
    { intros n sh lo p d I J. apply in_task_list in I as [(-> & -> & -> & ->)|(k & ar & T & -> & ->)]; [now apply Ini in J|]. split; [|eauto]. destruct d; [reflexivity|]. exfalso. apply (H2 n). left. exists k, p, (a_shared ar), (a_local ar). split; [now apply is_src|exact J]. }
    split.
    + intros d I. apply in_flat_map in I as ([[[n sh] lo] p] & I & J). exact (proj1 (Only _ _ _ _ _ I J)).
    + unfold all_locals.
      assert (Nd : NoDup (map (fun t => fst (fst (fst t))) (task_list a))).
      { clear - W. unfold task_list. rewrite !map_app, !map_map. cbn [fst map]. pose proof (wf_names W) as N. unfold idle_names in N. inversion N as [|? ? N1 N2]; subst.
        replace (map (fun t : ident * list ident * list (ident * tlocal) * nat => fst (fst (fst t))) match ap_idle a with Some (n, ar) => [(n, map fst (a_shared ar), a_local ar, 0)] | None => [] end) with (match ap_idle a with Some (n, _) => [n] | None => [] end) by (destruct (ap_idle a) as [[? ?]|]; reflexivity).
        change (fun x : ident * swtask => fst x) with (@fst ident swtask). change (fun x : ident * hwtask => fst x) with (@fst ident hwtask).
        simpl. constructor; [intros I; apply N1; rewrite !in_app_iff in *; tauto|]. eapply Permutation_NoDup; [|exact N2]. apply Permutation_app_head. apply Permutation_app_comm. }
      assert (Loc : forall t, In t (task_list a) -> NoDup (map fst (snd (fst t)))) by (intros [[[n sh] lo] p] I; cbn [fst snd]; eapply tl_nodup; eauto).
      assert (One : forall t t' d d', In t (task_list a) -> In t' (task_list a) -> In (x, d) (snd (fst t)) -> In (x, d') (snd (fst t')) -> fst (fst (fst t)) = fst (fst (fst t'))).
      { intros [[[n sh] lo] p] [[[n' sh'] lo'] p'] d d' I I' J J'. cbn [fst snd] in *. destruct (Only _ _ _ _ _ I J) as (-> & k & ar & T & _ & ->). destruct (Only _ _ _ _ _ I' J') as (-> & k' & ar' & T' & _ & ->).
        apply (H1 n p n' p'); apply ul_iff; eauto. }
      clear - Nd Loc One. induction (task_list a) as [|t l IH]; [cbn; lia|]. cbn [flat_map]. assert (Ha : forall A B, count x (A ++ B) = count x A + count x B) by (intros; unfold count; now rewrite filter_app, app_length). rewrite Ha.
      inversion Nd as [|? ? N1 N2]; subst. assert (C1 : count x (snd (fst t)) <= 1).
      { assert (N := Loc t (or_introl eq_refl)). clear - N. unfold count. induction (snd (fst t)) as [|[y d] L IH]; [simpl; lia|]. inversion N as [|? ? M1 M2]; subst. cbn [filter fst]. destruct (ieq x y) eqn:E; [|auto].
        apply ieq_spec in E. subst y. cbn [length]. destruct (filter (fun y => ieq x (fst y)) L) as [|[z d'] L'] eqn:F; [simpl; lia|exfalso]. assert (In (z, d') (filter (fun y => ieq x (fst y)) L)) as I by (rewrite F; now left).
        apply filter_In in I as [I E]. simpl in E. apply ieq_spec in E. subst z. apply M1. simpl. apply in_map_iff. now exists (x, d'). }
      assert (C2 : count x (flat_map (fun t : ident * list ident * list (ident * tlocal) * nat => snd (fst t)) l) <= 1).
      { apply IH; auto; intros; [apply Loc; now right|eapply One; eauto; now right]. }
      destruct (Nat.eq_dec (count x (snd (fst t))) 0) as [|Z]; [lia|]. destruct (Nat.eq_dec (count x (flat_map (fun t : ident * list ident * list (ident * tlocal) * nat => snd (fst t)) l)) 0) as [|Z']; [lia|exfalso].
      destruct (proj1 (count_pos x (snd (fst t)))) as [d J]; [lia|]. destruct (proj1 (count_pos x (flat_map (fun t : ident * list ident * list (ident * tlocal) * nat => snd (fst t)) l))) as [d' J']; [lia|].
      apply in_flat_map in J' as (t' & I' & J'). apply N1. rewrite (One t t' d d'); auto; [apply in_map_iff; now exists t'|now left|now right].
Qed.

Lemma check_zero : zero_error a = false <-> forall n sh lo n' sh' lo', src_task items n KIdle 0 sh lo -> ~ src_task items n' KSoft 0 sh' lo'.
Proof.
  split.
  - intros Z n sh lo n' sh' lo' T T'. apply src_is in T, T'. inversion T as [? ? G| |]; subst. apply soft_task in T' as (t & I & E & _). unfold zero_error in Z. rewrite G in Z.
    assert (existsb (fun t : ident * swtask => (sw_prio (snd t) =? 0) && true) (ap_sw a) = true); [|congruence]. apply existsb_exists. exists (n', t). split; [exact I|]. simpl. now rewrite E.
  - intros H. unfold zero_error. destruct (existsb _ _) eqn:E; [exfalso|reflexivity]. apply existsb_exists in E as ([n t] & I & E). apply andb_true_iff in E as [E E']. cbn [snd] in E. apply Nat.eqb_eq in E.
    destruct (ap_idle a) as [[m ar]|] eqn:Ei; [|discriminate]. apply (H m (a_shared ar) (a_local ar) n (a_shared (sw_args t)) (a_local (sw_args t))).
    + apply is_src. now apply T_idle.
    + apply is_src. apply soft_task. eauto.
Qed.

Lemma check_resources : syntax_check a = true /\ lf_error a = false /\ lr_error a = false /\ zero_error a = false <->
  resources_ok items /\ (forall n d p sh lo, src_task items n (KHard d) p sh lo -> ~ In d disp).
Proof.
  unfold syntax_check. rewrite !andb_true_iff, check_shared, check_local, check_mixed, check_bound, check_free, check_one, check_zero. split.
  - intros ((((H1 & H2) & H3) & H4) & H5 & H6 & H7). split; [|exact H4]. constructor; auto.
    + intros x n p n' p' U U'. destruct (H2 _ _ _ U) as [t F]. exact (proj1 (H6 x t F) _ _ _ _ U U').
    + intros x t n F. exact (proj2 (H6 x t F) n).
  - intros [[R1 R2 R3 R4 R5 R6 R7] H]. split; [auto|]. split; [auto|]. split; [|auto]. intros x t F. split; [apply R5|]. intros n. exact (R6 x t n F).
Qed.
End Parsed.

(** ** Targets *)
(** Decimal digits determine the number. *)
Fixpoint value (s : string) : nat -> nat := fun acc => match s with EmptyString => acc | String c s' => value s' (10 * acc + (nat_of_ascii c - 48)) end.
Lemma value_app s t acc : value (append s t) acc = value t (value s acc).
Proof. revert acc. induction s; intros acc; simpl; auto. Qed.
Lemma digit_value d : d < 10 -> nat_of_ascii (digit d) - 48 = d.
Proof. intros H. unfold digit. rewrite nat_ascii_embedding; lia. Qed.
Lemma digits_value fuel n : n < fuel -> value (digits fuel n) 0 = n.
Proof.
  revert n. induction fuel as [|f IH]; intros n H; [lia|]. cbn [digits]. destruct (Nat.ltb_spec n 10).
  - cbn [value]. rewrite digit_value by lia. lia.
  - rewrite value_app. assert (n / 10 < f) by (assert (n / 10 < n) by (apply Nat.div_lt; lia); lia). rewrite IH by assumption. cbn [value]. rewrite digit_value by (apply Nat.mod_upper_bound; lia).
    pose proof (Nat.div_mod n 10). lia.
Qed.
Lemma append_inj (p s t : string) : append p s = append p t -> s = t.
Proof. induction p as [|c p IH]; simpl; [auto|]. intros [= H]. auto. Qed.
Lemma slic_disp_inj i j : slic_disp i = slic_disp j -> i = j.
Proof. intros H. apply append_inj in H. rewrite <- (@digits_value (S i) i), <- (@digits_value (S j) j) by lia. now rewrite H. Qed.
Lemma slic_disps n : length (fold_left (fun l i => set_insert l (slic_disp i)) (seq 0 n) []) = n.
Proof.
  assert (G : forall k m l, (forall d, In d l -> exists i, i < m /\ d = slic_disp i) -> length (fold_left (fun l i => set_insert l (slic_disp i)) (seq m k) l) = length l + k).
  { induction k as [|k IH]; intros m l H; simpl; [lia|]. rewrite IH.
    - unfold set_insert. destruct (mem (slic_disp m) l) eqn:E; [|rewrite app_length; simpl; lia]. apply mem_in in E. apply H in E as (i & L & E). apply slic_disp_inj in E. lia.
    - intros d I. apply set_insert_in in I as [I| ->]; [apply H in I as (i & L & ->); exists i; split; [lia|auto]|exists m; split; [lia|auto]]. }
  rewrite G; [simpl; lia|intros d []].
Qed.

Section Target.
Context (disp : list ident) (items : list item) (a : app) (P : parsed disp items a).
Lemma nz_src p : In p (nz_prios a) <-> 0 < p /\ exists n sh lo, src_task items n KSoft p sh lo.
Proof.
  rewrite nz_prios_in. split; intros (Hp & G); (split; [exact Hp|]).
  - destruct G as (n & t & I & E). exists n, (a_shared (sw_args t)), (a_local (sw_args t)). apply (is_src P). apply (soft_task a). eauto.
  - destruct G as (n & sh & lo & T). apply (src_is P) in T. apply (soft_task a) in T as (t & I & E & _). eauto.
Qed.
Lemma enough_iff : length (nz_prios a) <= length disp <-> enough_dispatchers items disp.
Proof.
  split.
  - intros L ps N H. etransitivity; [|exact L]. apply NoDup_incl_length; [exact N|]. intros p I. apply nz_src. auto.
  - intros H. apply H; [apply nz_prios_NoDup|]. intros p I. now apply nz_src.
Qed.
Lemma hw_src d q : (exists t n, In (n, t) (ap_hw a) /\ hw_binds t = d /\ hw_prio t = q) <-> exists n sh lo, src_task items n (KHard d) q sh lo.
Proof.
  split.
  - intros (t & n & I & <- & <-). exists n, (a_shared (hw_args t)), (a_local (hw_args t)). apply (is_src P). now apply T_hw.
  - intros (n & sh & lo & T). apply (src_is P) in T. inversion T; subst. eauto.
Qed.
(** What is configured above priority 0 is what has a task above priority 0. *)
Lemma prios_conf (a' : app) ints (f : nat -> bool) : ap_hw a' = ap_hw a -> map fst ints = nz_prios a -> f 0 = true ->
  forallb (fun c => f (snd c)) (to_configure a' ints) = true <-> forall n k p sh lo, src_task items n k p sh lo -> f p = true.
Proof.
  intros Eh Ei F0. unfold to_configure. rewrite Eh, forallb_app, andb_true_iff, !forallb_iff. split.
  - intros [H1 H2] n k p sh lo T. destruct (Nat.eq_dec p 0) as [->|Hp]; [exact F0|]. assert (T' := T). apply (src_is P) in T'. inversion T' as [|? t G|? t G]; subst.
    + lia.
    + apply (H2 (hw_binds t, hw_prio t)). apply in_map_iff. exists (n, t). auto.
    + assert (I : In (sw_prio t) (map fst ints)) by (rewrite Ei; apply nz_src; split; [lia|eauto]). apply in_map_iff in I as ([p d] & E & I). simpl in E. subst p. apply (H1 (d, sw_prio t)). apply in_map_iff. exists (sw_prio t, d). auto.
  - intros H. split.
    + intros [d p] I. cbn [snd]. apply in_map_iff in I as ([q e] & [= -> ->] & I). assert (J : In p (nz_prios a)) by (rewrite <- Ei; apply in_map_iff; now exists (p, d)). apply nz_src in J as (_ & n & sh & lo & T). eauto.
    + intros [d p] I. cbn [snd]. apply in_map_iff in I as ([n t] & [= <- <-] & I). apply (H n (KHard (hw_binds t)) _ (a_shared (hw_args t)) (a_local (hw_args t))). apply (is_src P). now apply T_hw.
Qed.
Lemma hw_length : length (ap_hw a) <= length (flat_map bound items).
Proof.
  rewrite <- (map_length (fun t => hw_binds (snd t)) (ap_hw a)). apply NoDup_incl_length; [exact (wf_binds (pd_wf P))|]. intros d I. apply in_map_iff in I as ([n t] & <- & I). cbn [snd].
  assert (T : exists n sh lo, src_task items n (KHard (hw_binds t)) (hw_prio t) sh lo) by (apply hw_src; eauto). destruct T as (m & sh & lo & T). inversion T as [|? r b' J E|]; subst. apply in_flat_map. exists (ITask m r). split; [exact J|]. simpl. rewrite E. now left.
Qed.
Lemma conf_pos (a' : app) ints : ap_hw a' = ap_hw a -> map fst ints = nz_prios a -> forall c, In c (to_configure a' ints) -> 1 <= snd c.
Proof.
  intros Eh Ei [d p] I. unfold to_configure in I. rewrite Eh in I. apply in_app_iff in I as [I|I]; apply in_map_iff in I.
  - destruct I as ([q e] & [= -> ->] & I). assert (J : In p (nz_prios a)) by (rewrite <- Ei; apply in_map_iff; now exists (p, d)). apply nz_src in J as (J & _). exact J.
  - destruct I as ([n t] & [= <- <-] & I). cbn [snd]. exact (proj2 (wf_prio (pd_wf P) (T_hw _ _ _ I)) _ eq_refl).
Qed.
Definition target_rules (b : bkind) : Prop :=
  match b with
    | Cortex bits =>
        (forall d, In d disp -> ~ In d ["NonMaskableInt"; "HardFault"; "MemoryManagement"; "BusFault"; "UsageFault"; "SecureFault";
                                        "SVCall"; "DebugMonitor"; "PendSV"; "SysTick"]%string) /\
        (forall n d p sh lo, src_task items n (KHard d) p sh lo -> d <> "NonMaskableInt"%string /\ d <> "HardFault"%string) /\
        (forall n k p sh lo, src_task items n k p sh lo -> p <= 2 ^ bits)
    | Esp32c3 | Esp32c6 =>
        (forall d, In d disp -> In d ["FROM_CPU_INTR0"; "FROM_CPU_INTR1"; "FROM_CPU_INTR2"; "FROM_CPU_INTR3"]%string) /\
        (forall n k p sh lo, src_task items n k p sh lo -> p < 15)
    | Slic => disp = []
    end.
Definition back_end (b : bkind) : Prop :=
  exists a', preprocess b a = Some a' /\ arch_check b a' = true /\ exists ints, interrupts a' = Some ints /\ forallb (fun c => prio_supported b (snd c)) (configured b a' ints) = true.
Lemma ints_rest (f : nat -> bool) (cut : list (ident * nat) -> list (ident * nat)) : f 0 = true -> length (nz_prios a) <= length (ap_disp a) ->
  (forall ints, map fst ints = nz_prios a -> cut (to_configure a ints) = to_configure a ints) ->
  ((exists ints, interrupts a = Some ints /\ forallb (fun c => f (snd c)) (cut (to_configure a ints)) = true) <-> forall n k p sh lo, src_task items n k p sh lo -> f p = true).
Proof.
  intros F0 L C. destruct (interrupts_total a L) as [ints E]. destruct (interrupts_some a (wf_disp (pd_wf P)) E) as (Ei & _).
  rewrite <- (@prios_conf a ints f eq_refl Ei F0). rewrite <- (C _ Ei). split.
  - intros (i & E' & H). rewrite E in E'. injection E' as <-. exact H.
  - intros H. exists ints. auto.
Qed.
Lemma back_end_iff b : (b = Esp32c6 -> length (flat_map bound items) <= 8) -> (back_end b <-> (b <> Slic -> enough_dispatchers items disp) /\ target_rules b).
Proof.
  intros H8. unfold back_end, target_rules.
  assert (Esp : forall bb, bb = Esp32c3 \/ bb = Esp32c6 -> b = bb ->
    ((exists a', Some a = Some a' /\ forallb (fun d => mem d ["FROM_CPU_INTR0"; "FROM_CPU_INTR1"; "FROM_CPU_INTR2"; "FROM_CPU_INTR3"]%string) (ap_disp a') && enough a' = true /\
       exists ints, interrupts a' = Some ints /\ forallb (fun c => (snd c <? 15) && (1 <=? snd c)) (match bb with Esp32c6 => firstn 12 (to_configure a' ints) | _ => to_configure a' ints end) = true) <->
     enough_dispatchers items disp /\ (forall d, In d disp -> In d ["FROM_CPU_INTR0"; "FROM_CPU_INTR1"; "FROM_CPU_INTR2"; "FROM_CPU_INTR3"]%string) /\
        (forall n k p sh lo, src_task items n k p sh lo -> p < 15))).
  { intros bb Hbb Eb. assert (D : forallb (fun d => mem d ["FROM_CPU_INTR0"; "FROM_CPU_INTR1"; "FROM_CPU_INTR2"; "FROM_CPU_INTR3"]%string) (ap_disp a) = true <-> forall d, In d disp -> In d ["FROM_CPU_INTR0"; "FROM_CPU_INTR1"; "FROM_CPU_INTR2"; "FROM_CPU_INTR3"]%string).
    { rewrite forallb_iff, (pd_disp P). split; intros H d I; [apply mem_in; auto|apply mem_in; auto]. }
    assert (Q : forall ints, map fst ints = nz_prios a -> length (nz_prios a) <= length (ap_disp a) -> (forall d, In d disp -> In d ["FROM_CPU_INTR0"; "FROM_CPU_INTR1"; "FROM_CPU_INTR2"; "FROM_CPU_INTR3"]%string) ->
      (match bb with Esp32c6 => firstn 12 (to_configure a ints) | _ => to_configure a ints end) = to_configure a ints).
    { intros ints Ei L Hd. destruct Hbb as [-> | ->]; [reflexivity|]. apply firstn_all2. unfold to_configure. rewrite app_length, !map_length. rewrite <- (map_length fst ints), Ei.
      pose proof hw_length. assert (length (ap_disp a) <= 4). { rewrite (pd_disp P). apply (NoDup_incl_length (l' := ["FROM_CPU_INTR0"; "FROM_CPU_INTR1"; "FROM_CPU_INTR2"; "FROM_CPU_INTR3"]%string)); [rewrite <- (pd_disp P); apply (wf_disp (pd_wf P))|exact Hd]. } specialize (H8 Eb). lia. }
    split.
    - intros (a' & [= <-] & A & ints & Ei & F). apply andb_true_iff in A as [A1 A2]. unfold enough in A2. apply Nat.leb_le in A2. pose proof (proj1 D A1) as A1'. clear A1; rename A1' into A1. destruct (interrupts_some a (wf_disp (pd_wf P)) Ei) as (Ej & _).
      rewrite Q in F by auto. rewrite (pd_disp P) in A2. split; [now apply enough_iff|]. split; [exact A1|]. intros n k p sh lo T.
      assert (G : forallb (fun c : ident * nat => (fun q => q <? 15) (snd c)) (to_configure a ints) = true).
      { rewrite forallb_iff in *. intros c I. apply F in I. now apply andb_true_iff in I as [I _]. }
      rewrite (@prios_conf a ints (fun q => q <? 15) eq_refl Ej eq_refl) in G. apply Nat.ltb_lt. eauto.
    - intros (A2 & A1 & A3). apply enough_iff in A2. rewrite <- (pd_disp P) in A2. exists a. split; [reflexivity|]. split; [apply andb_true_iff; split; [now apply D|apply Nat.leb_le; exact A2]|].
      destruct (interrupts_total a A2) as [ints Ei]. destruct (interrupts_some a (wf_disp (pd_wf P)) Ei) as (Ej & _). exists ints. split; [exact Ei|]. rewrite Q by auto.
      assert (G : forallb (fun c : ident * nat => (fun q => q <? 15) (snd c)) (to_configure a ints) = true).
      { apply (@prios_conf a ints (fun q => q <? 15) eq_refl Ej eq_refl). intros n k p sh lo T. apply Nat.ltb_lt. eauto. }
      rewrite forallb_iff in *. intros c I. apply andb_true_iff. split; [now apply G|]. apply Nat.leb_le. exact (@conf_pos a ints eq_refl Ej c I). }
  destruct b as [bits| | |].
  - cbn [preprocess arch_check configured prio_supported]. split.
    + intros (a' & [= <-] & A & ints & Ei & F). rewrite !andb_true_iff in A. destruct A as ((A1 & A2) & A3). unfold enough in A2. apply Nat.leb_le in A2.
      split; [intros _; apply enough_iff; now rewrite <- (pd_disp P)|]. split; [|split].
      * intros d I J. apply negb_true_iff in A1. assert (existsb (fun d => mem d exceptions) (ap_disp a) = true); [|congruence]. apply existsb_exists. exists d. rewrite (pd_disp P). split; [exact I|]. apply mem_in. exact J.
      * intros n d p sh lo T. assert (T' : exists n sh lo, src_task items n (KHard d) p sh lo) by eauto. apply hw_src in T' as (t & m & I & <- & _). rewrite forallb_iff in A3. apply A3 in I. cbn [snd] in I. apply negb_true_iff in I.
        split; intros E; rewrite E in I; discriminate.
      * intros n k p sh lo T. apply Nat.leb_le. exact (proj1 (@ints_rest (fun p => p <=? 2 ^ bits) (fun l => l) eq_refl A2 (fun _ _ => eq_refl)) (ex_intro _ ints (conj Ei F)) n k p sh lo T).
    + intros (A2 & A1 & A3 & A4). specialize (A2 ltac:(discriminate)). apply enough_iff in A2. rewrite <- (pd_disp P) in A2. exists a. split; [reflexivity|]. split.
      * rewrite !andb_true_iff. split; [split|].
        -- apply negb_true_iff. destruct (existsb _ _) eqn:E; [exfalso|reflexivity]. apply existsb_exists in E as (d & I & M). rewrite (pd_disp P) in I. apply (A1 d I). apply mem_in in M. exact M.
        -- now apply Nat.leb_le.
        -- rewrite forallb_iff. intros [n t] I. cbn [snd]. apply negb_true_iff. destruct (mem _ _) eqn:M; [exfalso|reflexivity]. assert (T : exists n sh lo, src_task items n (KHard (hw_binds t)) (hw_prio t) sh lo) by (apply hw_src; eauto).
           destruct T as (m & sh & lo & T). destruct (A3 _ _ _ _ _ T) as [X Y]. apply mem_in in M. destruct M as [M|[M|[]]]; congruence.
      * apply (@ints_rest (fun p => p <=? 2 ^ bits) (fun l => l)); auto. intros n k p sh lo T. apply Nat.leb_le. eauto.
  - specialize (Esp Esp32c3 (or_introl eq_refl) eq_refl). cbn [preprocess arch_check configured prio_supported]. rewrite Esp. split; [intros (E1 & E2); split; auto|intros (E1 & E2); split; [apply E1; discriminate|exact E2]].
  - specialize (Esp Esp32c6 (or_intror eq_refl) eq_refl). cbn [preprocess arch_check configured prio_supported]. rewrite Esp. split; [intros (E1 & E2); split; auto|intros (E1 & E2); split; [apply E1; discriminate|exact E2]].
  - cbn [preprocess arch_check configured prio_supported]. rewrite (pd_disp P). split.
    + intros (a' & E & _). split; [intros X; congruence|]. destruct disp; [reflexivity|discriminate].
    + intros [_ E]. rewrite E. eexists. split; [reflexivity|]. set (a' := mkApp _ _ _ _ _ _ _).
      assert (L : length (nz_prios a') <= length (ap_disp a')) by (unfold a'; cbn [ap_disp]; rewrite slic_disps; reflexivity).
      split; [now apply Nat.leb_le|]. destruct (interrupts_total a' L) as [ints Ei]. exists ints. split; [exact Ei|]. apply forallb_iff. auto.
Qed.
End Target.

Lemma expand_iff b disp items : how_many is_shared items = 1 -> how_many is_local items = 1 -> (b = Esp32c6 -> length (flat_map bound items) <= 8) ->
  ((exists x, expand b disp items = Some x) <-> module_ok items /\ resources_ok items /\ target_ok b disp items).
Proof.
  intros Hs Hl H8. pose proof (parse_app_iff disp items Hs Hl) as I.
  assert (T : target_ok b disp items <-> NoDup disp /\ (forall n d p sh lo, src_task items n (KHard d) p sh lo -> ~ In d disp) /\ (b <> Slic -> enough_dispatchers items disp) /\ target_rules disp items b).
  { split; [intros [T1 T2 T3 T4]; auto|intros (T1 & T2 & T3 & T4); constructor; auto]. }
  rewrite T. clear T. unfold expand. destruct (parse_app disp items) as [a|] eqn:E.
  - assert (P := parse_parsed _ _ E). destruct (proj1 I (ex_intro _ a eq_refl)) as [Nd M]. clear I. pose proof (check_resources P) as C. pose proof (back_end_iff P H8) as B. unfold back_end in B. split.
    + intros [x X]. destruct (syntax_check a) eqn:E2; [|discriminate]. cbn [negb] in X. unfold analyze in X. destruct (lf_error a) eqn:F1; [discriminate|]. destruct (lr_error a) eqn:F2; [discriminate|]. destruct (zero_error a) eqn:F3; [discriminate|].
      cbn [orb] in X. destruct (loc_loop a (an_own (own_loop a))) as [u o]. destruct (proj1 C) as [R D]; [auto|]. split; [exact M|]. split; [exact R|]. split; [exact Nd|]. split; [exact D|]. apply B.
      destruct (preprocess b a) as [a'|]; [|discriminate]. exists a'. split; [reflexivity|]. destruct (arch_check b a'); [|discriminate]. split; [reflexivity|]. cbn [negb] in X. destruct (interrupts a') as [ints|]; [|discriminate].
      exists ints. split; [reflexivity|]. destruct (forallb _ _); [reflexivity|discriminate].
    + intros (_ & R & _ & D & T). apply B in T as (a' & E4 & E5 & ints & E6 & E7). destruct (proj2 C) as (E2 & F1 & F2 & F3); [auto|]. rewrite E2. cbn [negb]. unfold analyze. rewrite F1, F2, F3. cbn [orb].
      destruct (loc_loop a (an_own (own_loop a))) as [u o]. rewrite E4, E5. cbn [negb]. rewrite E6, E7. eauto.
  - split; [intros [x X]; discriminate X|]. intros (M & _ & Nd & _). destruct (proj2 I (conj Nd M)) as [? X]. discriminate X.
Qed.
