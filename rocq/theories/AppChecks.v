(** Proofs about the macro model: the lock_free and local checks, ownership of locals, Send types, channels. *)
From Verif Require Import Base AppModel AppSpec AppProofs AppAnalysis.
Set Implicit Arguments.

Lemma fold_flat {S T U} (f : S -> U -> S) (g : T -> list U) l s : fold_left (fun s t => fold_left f (g t) s) l s = fold_left f (flat_map g l) s.
Proof. revert s. induction l as [|t l IH]; intros s; simpl; [reflexivity|]. now rewrite fold_left_app, IH. Qed.
Lemma fold_left_ext {S T} (f g : S -> T -> S) l s : (forall s t, f s t = g s t) -> fold_left f l s = fold_left g l s.
Proof. intros H. revert s. induction l as [|t l IH]; intros s; simpl; [reflexivity|]. now rewrite H, IH. Qed.

(** ** Local resources *)
Definition count (x : ident) (L : list (ident * tlocal)) : nat := length (filter (fun y => ieq x (fst y)) L).
Lemma count_pos x L : 1 <= count x L <-> exists d, In (x, d) L.
Proof.
  unfold count. split.
  - intros H. destruct (filter (fun y => ieq x (fst y)) L) as [|[y d] l] eqn:E; [simpl in H; lia|]. exists d. assert (Hi : In (y, d) (filter (fun z => ieq x (fst z)) L)) by (rewrite E; now left).
    apply filter_In in Hi as [Hi Hy]. simpl in Hy. apply ieq_spec in Hy. now subst.
  - intros (d & H). assert (Hi : In (x, d) (filter (fun z => ieq x (fst z)) L)) by (apply filter_In; simpl; rewrite ieq_refl; auto).
    destruct (filter (fun z => ieq x (fst z)) L); [destruct Hi|simpl; lia].
Qed.
Lemma lr_inner lr L s : lr_bad (fold_left (lr_use lr) L s) = [] <->
  lr_bad s = [] /\ (forall d, In (lr, d) L -> d = External) /\ (if mem lr (lr_hash s) then 1 else 0) + count lr L <= 1.
Proof.
  revert s. induction L as [|[y d] L IH]; intros s.
  - simpl. split; [intros H; repeat split; auto; [tauto|unfold count; simpl; destruct (mem lr (lr_hash s)); lia]|tauto].
  - cbn [fold_left]. rewrite IH. clear IH. unfold lr_use, count. cbn [fst snd filter]. destruct (ieq lr y) eqn:E.
    + apply ieq_spec in E. subst y. destruct d.
      * cbn [lr_hash lr_bad length].
        assert (mem lr (lr :: lr_hash s) = true) as -> by (apply mem_in; now left).
        destruct (mem lr (lr_hash s)) eqn:Em.
        -- split; [intros (H & _); destruct (lr_bad s); discriminate|intros (_ & _ & H); lia].
        -- split; [intros (H1 & H2 & H3)|intros (H1 & H2 & H3)]; repeat split; auto; try lia.
           ++ intros d [[= <-]|H]; auto.
           ++ intros d H. apply H2. now right.
      * split; [intros (H & _)|intros (_ & H & _)]; [cbn [lr_bad] in H; destruct (lr_bad s); discriminate|]. specialize (H Declared (or_introl eq_refl)). discriminate.
    + apply ieq_false in E. split; intros (H1 & H2 & H3); repeat split; auto.
      * intros d' [[= -> _]|H]; [congruence|auto].
      * intros d' H. apply H2. now right.
Qed.
Lemma lr_inner_hash lr L s y : In y (lr_hash (fold_left (lr_use lr) L s)) -> In y (lr_hash s) \/ y = lr.
Proof.
  revert s. induction L as [|[z d] L IH]; intros s; cbn [fold_left]; [auto|]. intros H. apply IH in H as [H|H]; [|auto]. unfold lr_use in H. cbn [fst snd] in H.
  destruct (ieq lr z) eqn:E; [|auto]. apply ieq_spec in E. subst z. destruct d; cbn [lr_hash] in H; [|auto]. destruct H as [H|H]; auto.
Qed.
Lemma lr_outer lrs L s : NoDup lrs -> (forall x, In x lrs -> ~ In x (lr_hash s)) ->
  (lr_bad (fold_left (fun s lr => fold_left (lr_use lr) L s) lrs s) = [] <-> lr_bad s = [] /\ forall x, In x lrs -> (forall d, In (x, d) L -> d = External) /\ count x L <= 1).
Proof.
  revert s. induction lrs as [|lr lrs IH]; intros s N Hn; cbn [fold_left]; [simpl; tauto|]. inversion N as [|? ? N1 N2]; subst.
  rewrite IH; auto.
  - rewrite lr_inner. assert (mem lr (lr_hash s) = false) as -> by (apply mem_false, Hn; now left). rewrite Nat.add_0_l. split.
    + intros ((H1 & H2 & H3) & H4). split; [auto|]. intros x [<-|H]; auto.
    + intros (H1 & H2). split; [|intros x H; apply H2; now right]. destruct (H2 lr (or_introl eq_refl)). auto.
  - intros x Hx H. apply lr_inner_hash in H as [H| ->]; [apply (Hn x); [now right|auto]|contradiction].
Qed.

Section A.
Context (a : app) (W : app_wf a).
Definition all_locals : list (ident * tlocal) := flat_map (fun t : ident * list ident * list (ident * tlocal) * nat => snd (fst t)) (task_list a).
Lemma lr_error_iff : lr_error a = false <-> forall x, In x (map fst (ap_local a)) -> (forall d, In (x, d) all_locals -> d = External) /\ count x all_locals <= 1.
Proof.
  unfold lr_error, lr_loop.
  rewrite (@fold_left_ext _ _ _ (fun s lr => fold_left (lr_use lr) all_locals s)).
  2:{ intros s lr. unfold all_locals. rewrite <- fold_flat. apply fold_left_ext. intros s' [[[? ?] ?] ?]. reflexivity. }
  pose proof (@lr_outer (map fst (ap_local a)) all_locals (mkLr [] []) (wf_local W)) as H. cbn [lr_bad] in H.
  specialize (H (fun _ _ X => X)).
  match type of H with (?b = [] <-> _) => destruct b as [|i l] end; split; intros Hx; try discriminate; try reflexivity.
  - apply H. reflexivity.
  - enough (i :: l = []) by discriminate. apply H. auto.
Qed.
Lemma count_two x (l : list (ident * list ident * list (ident * tlocal) * nat)) t1 t2 : In t1 l -> In t2 l -> t1 <> t2 -> 1 <= count x (snd (fst t1)) -> 1 <= count x (snd (fst t2)) -> 2 <= count x (flat_map (fun t => snd (fst t)) l).
Proof.
  intros H1 H2 Hn C1 C2. assert (Ha : forall A B, count x (A ++ B) = count x A + count x B) by (intros; unfold count; now rewrite filter_app, app_length).
  assert (Hp : forall l t, In t l -> count x (snd (fst t)) <= count x (flat_map (fun t : ident * list ident * list (ident * tlocal) * nat => snd (fst t)) l)).
  { clear -Ha. induction l as [|u l IH]; simpl; [tauto|]. intros t [->|H]; rewrite Ha; [lia|apply IH in H; lia]. }
  induction l as [|u l IH]; simpl in *; [tauto|]. rewrite Ha. destruct H1 as [->|H1], H2 as [->|H2].
  - congruence.
  - apply Hp in H2. lia.
  - apply Hp in H1. lia.
  - specialize (IH H1 H2). lia.
Qed.
(** A field of the local struct is used by at most one function, and no function declares its own local of that name. *)
Lemma local_unique x : lr_error a = false -> In x (map fst (ap_local a)) ->
  (forall n k p ar n' k' p' ar' d d', is_task a n k p ar -> is_task a n' k' p' ar' -> In (x, d) (a_local ar) -> In (x, d') (a_local ar') -> n = n' /\ d = External) /\
  (forall d, ~ In (x, d) (snd (ap_init a))).
Proof.
  intros H Hx. pose proof (proj1 lr_error_iff H x Hx) as [He Hc]. split.
  - intros n k p ar n' k' p' ar' d d' Ht Ht' Hd Hd'.
    assert (T1 : In (n, map fst (a_shared ar), a_local ar, p) (task_list a)) by (apply in_task_list; right; eauto).
    assert (T2 : In (n', map fst (a_shared ar'), a_local ar', p') (task_list a)) by (apply in_task_list; right; eauto).
    split.
    + destruct (string_dec n n') as [|Hn]; [auto|exfalso]. enough (2 <= count x all_locals) by lia.
      apply (@count_two x (task_list a) _ _ T1 T2); simpl; [congruence| |]; apply count_pos; eauto.
    + apply He. unfold all_locals. apply in_flat_map. eauto.
  - intros d Hd. specialize (He d). assert (d = External) as ->. { apply He. unfold all_locals. apply in_flat_map. exists (fst (ap_init a), [], snd (ap_init a), 0). split; [apply in_task_list; auto|auto]. }
    apply (wf_init W) in Hd. discriminate.
Qed.

(** ** Ownership of the locals *)
Lemma loc_inner prio L s x : NoDup (map fst L) -> iget (snd (fold_left (loc_step prio) L s)) x = match iget L x with Some External => Some (Owned prio) | _ => iget (snd s) x end.
Proof.
  revert s. induction L as [|[y d] L IH]; intros s N; simpl; [reflexivity|]. inversion N as [|? ? N1 N2]; subst. rewrite IH by assumption. cbn [loc_step snd fst].
  destruct (ieq x y) eqn:E.
  - apply ieq_spec in E. subst y. assert (iget L x = None) as -> by now apply iget_none. destruct d; [now rewrite iget_insert, ieq_refl|reflexivity].
  - destruct d; [|reflexivity]. rewrite iget_insert, E. reflexivity.
Qed.
Lemma loc_inner_used prio L s x : In x (fst (fold_left (loc_step prio) L s)) <-> In x (fst s) \/ In x (map fst L).
Proof. revert s. induction L as [|[y d] L IH]; intros s; simpl; [tauto|]. rewrite IH. cbn [loc_step fst]. rewrite set_insert_in. split; [intros [[H|H]|H]|intros [H|[H|H]]]; auto. Qed.
Lemma tl_nodup n sh lo p : In (n, sh, lo, p) (task_list a) -> NoDup (map fst lo).
Proof. intros H. apply in_task_list in H as [(_ & _ & -> & _)|(k & ar & H & _ & ->)]; [apply (wf_init_nd W)|]. now apply (wf_args W) in H. Qed.
Lemma loc_loop_used o x : In x (fst (loc_loop a o)) <-> exists n sh lo p, In (n, sh, lo, p) (task_list a) /\ In x (map fst lo).
Proof.
  unfold loc_loop. assert (G : forall l s, In x (fst (fold_left (fun s (t : ident * list ident * list (ident * tlocal) * nat) => let '(_, _, locals, prio) := t in fold_left (loc_step prio) locals s) l s)) <->
    In x (fst s) \/ exists n sh lo p, In (n, sh, lo, p) l /\ In x (map fst lo)).
  { induction l as [|[[[n sh] lo] p] l IH]; intros s; simpl; [split; [auto|intros [H|(? & ? & ? & ? & [] & _)]; auto]|]. rewrite IH, loc_inner_used. split.
    - intros [[H|H]|(n' & sh' & lo' & p' & H & H')]; [auto|right; exists n, sh, lo, p; auto|right; exists n', sh', lo', p'; auto].
    - intros [H|(n' & sh' & lo' & p' & [[= <- <- <- <-]|H] & H')]; [auto|auto|right; exists n', sh', lo', p'; auto]. }
  rewrite G. simpl. tauto.
Qed.
(** A name used as an external local ends up owned by its (unique) task; other names keep their ownership. *)
Lemma loc_loop_none o x : (forall n k p ar, is_task a n k p ar -> ~ In (x, External) (a_local ar)) -> iget (snd (loc_loop a o)) x = iget o x.
Proof.
  intros H. unfold loc_loop.
  assert (G : forall l s, (forall t, In t l -> In t (task_list a)) -> iget (snd (fold_left (fun s (t : ident * list ident * list (ident * tlocal) * nat) => let '(_, _, locals, prio) := t in fold_left (loc_step prio) locals s) l s)) x = iget (snd s) x).
  { induction l as [|[[[n sh] lo] p] l IH]; intros s Hl; simpl; [reflexivity|]. rewrite IH by (intros; apply Hl; now right). pose proof (Hl _ (or_introl eq_refl)) as Ht. rewrite loc_inner by (eapply tl_nodup; eauto).
    destruct (iget lo x) as [[|]|] eqn:E; try reflexivity. exfalso. apply iget_in in E. apply in_task_list in Ht as [(_ & _ & -> & _)|(k & ar & Ht & _ & ->)]; [apply (wf_init W) in E; discriminate|]. exact (H _ _ _ _ Ht E). }
  now rewrite G.
Qed.
Lemma loc_loop_some o x n k p ar : is_task a n k p ar -> In (x, External) (a_local ar) ->
  (forall n' k' p' ar', is_task a n' k' p' ar' -> In (x, External) (a_local ar') -> n' = n) -> iget (snd (loc_loop a o)) x = Some (Owned p).
Proof.
  intros Ht Hx Hu. unfold loc_loop.
  assert (G : forall l s, (forall t, In t l -> In t (task_list a)) ->
    (In (n, map fst (a_shared ar), a_local ar, p) l \/ iget (snd s) x = Some (Owned p)) ->
    iget (snd (fold_left (fun s (t : ident * list ident * list (ident * tlocal) * nat) => let '(_, _, locals, prio) := t in fold_left (loc_step prio) locals s) l s)) x = Some (Owned p)).
  { induction l as [|[[[n' sh] lo] p'] l IH]; intros s Hl Hor; simpl; [destruct Hor as [[]|H]; auto|]. apply IH; [intros; apply Hl; now right|].
    pose proof (Hl _ (or_introl eq_refl)) as Ht'. rewrite loc_inner by (eapply tl_nodup; eauto). destruct (iget lo x) as [[|]|] eqn:E.
    - right. apply iget_in in E. apply in_task_list in Ht' as [(_ & _ & -> & _)|(k' & ar' & Ht' & _ & ->)]; [apply (wf_init W) in E; discriminate|].
      pose proof (Hu _ _ _ _ Ht' E) as ->. destruct (task_names_unique W Ht Ht') as (_ & -> & _). reflexivity.
    - destruct Hor as [[H|H]|H]; auto. injection H as H1 H2 H3 H4. pose proof (@in_iget _ (a_local ar) x External (proj2 (wf_args W Ht)) Hx). congruence.
    - destruct Hor as [[H|H]|H]; auto. injection H as H1 H2 H3 H4. pose proof (@in_iget _ (a_local ar) x External (proj2 (wf_args W Ht)) Hx). congruence. }
  apply G; auto. left. apply in_task_list. right. eauto.
Qed.

(** ** Lock-free resources *)
Definition lf_ok (s : lfst) : Prop := lf_err s = false /\ lf_bad s = [].
Lemma lf_inner lf (U : list (ident * ident * nat)) s : let s' := fold_left (fun s u => lf_use a lf (fst (fst u)) (snd u) s (snd (fst u))) U s in
  (lf_ok s' <-> lf_ok s /\ (forall t p, In (t, lf, p) U -> ihas (ap_sw a) t = false) /\ (forall t p t' p', In (t, lf, p) U -> In (t', lf, p') U -> p = p') /\
     (forall p0 t p, iget (lf_hash s) lf = Some p0 -> In (t, lf, p) U -> p = p0)) /\
  (forall y, y <> lf -> iget (lf_hash s') y = iget (lf_hash s) y).
Proof.
  cbv zeta. revert s. induction U as [|[[t r] p] U IH]; intros s.
  - simpl. split; [|auto]. split; [intros H; repeat split; try tauto; apply H|tauto].
  - cbn [fold_left]. specialize (IH (lf_use a lf t p s r)). cbn [fst snd] in *. destruct IH as [IH1 IH2]. destruct (ieq lf r) eqn:E.
    + apply ieq_spec in E. subst r. split.
      2:{ intros y Hy. rewrite IH2 by assumption. unfold lf_use. rewrite ieq_refl. cbn [lf_hash]. rewrite iget_insert. now rewrite (proj2 (ieq_false y lf) Hy). }
      rewrite IH1. clear IH1 IH2. unfold lf_use. rewrite ieq_refl. unfold lf_ok. cbn [lf_err lf_bad lf_hash].
      assert (Hi : forall p0, iget (iinsert (lf_hash s) lf p) lf = Some p0 <-> p0 = p) by (intros p0; rewrite iget_insert, ieq_refl; split; congruence).
      split.
      * intros ((He & Hb) & H2 & H3 & H4). apply orb_false_iff in He as [He1 He2].
        assert (Hp : lf_bad s = [] /\ forall p0, iget (lf_hash s) lf = Some p0 -> p = p0).
        { destruct (iget (lf_hash s) lf) as [p0|]; [|split; [auto|discriminate]]. destruct (Nat.eqb_spec p p0); cbn [negb] in Hb.
          - destruct (mem lf (lf_bad s)); [destruct (lf_bad s); discriminate|]. split; [auto|intros ? [= <-]; auto].
          - exfalso. destruct (mem lf _); destruct (lf_bad s); discriminate. }
        destruct Hp as [Hb0 Hp]. repeat split; auto.
        -- intros t' p' [[= <- <-]|H]; auto. eapply H2; eauto.
        -- intros t1 p1 t2 p2 [[= <- <-]|G1] [[= <- <-]|G2]; auto; [symmetry; eapply H4; eauto; now apply Hi|eapply H4; eauto; now apply Hi|eapply H3; eauto].
        -- intros p0 t' p' Hp0 [[= <- <-]|G]; [auto|]. rewrite <- (Hp p0 Hp0). eapply H4; eauto. now apply Hi.
      * intros ((He & Hb) & H2 & H3 & H4). repeat split.
        -- rewrite He. simpl. apply (H2 t p). now left.
        -- destruct (iget (lf_hash s) lf) as [p0|] eqn:Ep; [|auto]. assert (p = p0) as -> by (eapply H4; [reflexivity|now left]). rewrite Nat.eqb_refl. cbn [negb]. rewrite Hb. reflexivity.
        -- intros t' p' G. apply (H2 t' p'). now right.
        -- intros t1 p1 t2 p2 G1 G2. apply (H3 t1 p1 t2 p2); now right.
        -- intros p0 t' p' Hp0 G. apply Hi in Hp0. subst p0. apply (H3 t' p' t p); [now right|now left].
    + apply ieq_false in E. assert (Es : lf_use a lf t p s r = s) by (unfold lf_use; now rewrite (proj2 (ieq_false lf r) E)). rewrite Es in *. split; [|exact IH2]. rewrite IH1.
      assert (Hin : forall t' p', In (t', lf, p') ((t, r, p) :: U) <-> In (t', lf, p') U) by (intros t' p'; split; [intros [[= -> -> ->]|H]; [congruence|auto]|now right]).
      split; intros (H1 & H2 & H3 & H4); (split; [exact H1|split; [|split]]).
      * intros t1 p1 G1. apply Hin in G1. eauto.
      * intros t1 p1 t2 p2 G1 G2. apply Hin in G1, G2. eauto.
      * intros p0 t1 p1 Hp G1. apply Hin in G1. eauto.
      * intros t1 p1 G1. eapply H2. apply Hin. eauto.
      * intros t1 p1 t2 p2 G1 G2. eapply H3; apply Hin; eauto.
      * intros p0 t1 p1 Hp G1. eapply H4; eauto. apply Hin; eauto.
Qed.
Definition all_uses : list (ident * ident * nat) := flat_map (fun t : ident * list ident * list (ident * tlocal) * nat => map (fun r => (fst (fst (fst t)), r, snd t)) (snd (fst (fst t)))) (task_list a).
Lemma in_all_uses t r p : In (t, r, p) all_uses <-> exists k ar ac, is_task a t k p ar /\ In (r, ac) (a_shared ar).
Proof.
  unfold all_uses. rewrite in_flat_map. split.
  - intros ([[[n sh] lo] q] & H & H'). cbn [fst snd] in H'. apply in_map_iff in H' as (r' & [= -> -> ->] & H'). apply in_task_list in H as [(_ & -> & _)|(k & ar & H & -> & ->)]; [destruct H'|].
    apply in_map_iff in H' as ([r' ac] & <- & H'). simpl. eauto.
  - intros (k & ar & ac & H & H'). exists (t, map fst (a_shared ar), a_local ar, p). split; [apply in_task_list; right; eauto|]. cbn [fst snd]. apply in_map_iff. exists r. split; [reflexivity|]. apply in_map_iff. now exists (r, ac).
Qed.
Lemma lf_error_iff : lf_error a = false <-> forall x r, In (x, r) (ap_shared a) -> sr_lock_free r = true ->
  (forall t p, In (t, x, p) all_uses -> ihas (ap_sw a) t = false) /\ (forall t p t' p', In (t, x, p) all_uses -> In (t', x, p') all_uses -> p = p').
Proof.
  set (lfs := map fst (filter (fun r => sr_lock_free (snd r)) (ap_shared a))).
  assert (Nlf : NoDup lfs). { unfold lfs. pose proof (wf_shared W) as N. induction (ap_shared a) as [|[y r] l IH]; simpl; [constructor|]. inversion N as [|? ? N1 N2]; subst. destruct (sr_lock_free r); simpl; [|auto]. constructor; [|auto].
    intros H. apply N1. apply in_map_iff in H as (z & <- & H). apply filter_In in H as [H _]. now apply in_map. }
  assert (Hl : lf_loop a = fold_left (fun s lf => fold_left (fun s u => lf_use a lf (fst (fst u)) (snd u) s (snd (fst u))) all_uses s) lfs (mkLf false [] [])).
  { unfold lf_loop. fold lfs. apply fold_left_ext. intros s lf. unfold all_uses. rewrite <- fold_flat. apply fold_left_ext. intros s' [[[n sh] lo] p]. cbn [fst snd]. clear. revert s'. induction sh as [|r sh IH]; intros s'; simpl; [reflexivity|apply IH]. }
  assert (G : forall l s, NoDup l -> (forall x, In x l -> iget (lf_hash s) x = None) ->
    (lf_ok (fold_left (fun s lf => fold_left (fun s u => lf_use a lf (fst (fst u)) (snd u) s (snd (fst u))) all_uses s) l s) <->
     lf_ok s /\ forall x, In x l -> (forall t p, In (t, x, p) all_uses -> ihas (ap_sw a) t = false) /\ (forall t p t' p', In (t, x, p) all_uses -> In (t', x, p') all_uses -> p = p'))).
  { induction l as [|y l IH]; intros s N Hn; cbn [fold_left]; [simpl; tauto|]. inversion N as [|? ? N1 N2]; subst.
    destruct (@lf_inner y all_uses s) as [L1 L2]. rewrite IH; auto.
    - rewrite L1. split.
      + intros ((H1 & H2 & H3 & _) & H4). split; [auto|]. intros x [<-|H]; auto.
      + intros (H1 & H2). destruct (H2 y (or_introl eq_refl)) as [H3 H4]. split; [split; [auto|split; [auto|split; [auto|]]]|intros x H; apply H2; now right].
        intros p0 t p Hp. rewrite Hn in Hp by now left. discriminate.
    - intros x Hx. rewrite L2 by congruence. apply Hn. now right. }
  assert (E : lf_error a = false <-> lf_ok (lf_loop a)).
  { unfold lf_error, lf_ok. rewrite orb_false_iff. split; intros [H1 H2]; (split; [auto|]); destruct (lf_bad (lf_loop a)); auto; discriminate. }
  rewrite E, Hl, G by (auto; intros; reflexivity). split.
  - intros [_ H] x r Hx Hr. apply H. unfold lfs. apply in_map_iff. exists (x, r). split; [reflexivity|]. apply filter_In. auto.
  - intros H. split; [split; reflexivity|]. intros x Hx. unfold lfs in Hx. apply in_map_iff in Hx as ([x' r] & <- & Hx). apply filter_In in Hx as [Hx Hr]. simpl in *. eauto.
Qed.
End A.
