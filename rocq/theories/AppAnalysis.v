(** Proofs about the macro model: checks and analysis. *)
From Verif Require Import Base AppModel AppSpec AppProofs.
Set Implicit Arguments.

Section A.
Context (a : app).

Lemma in_accesses p x ac : In (p, x, ac) (accesses a) <-> exists n k ar, is_task a n k p ar /\ In (x, ac) (a_shared ar).
Proof.
  unfold accesses. rewrite !in_app_iff, !in_flat_map. split.
  - intros [H|[((n, t) & H & H')|((n, t) & H & H')]].
    + destruct (ap_idle a) as [[n ar]|] eqn:E; [|destruct H]. apply in_map_iff in H as ([y c] & [= <- <- <-] & H). exists n, KIdle, ar. split; [now apply T_idle|exact H].
    + apply in_map_iff in H' as ([y c] & [= <- <- <-] & H'). exists n, (KHard (hw_binds t)), (hw_args t). split; [now apply T_hw|exact H'].
    + apply in_map_iff in H' as ([y c] & [= <- <- <-] & H'). exists n, KSoft, (sw_args t). split; [now apply T_sw|exact H'].
  - intros (n & k & ar & H & H'). destruct H as [n ar H|n t H|n t H].
    + left. rewrite H. apply in_map_iff. now exists (x, ac).
    + right; left. exists (n, t). split; [exact H|]. apply in_map_iff. now exists (x, ac).
    + right; right. exists (n, t). split; [exact H|]. apply in_map_iff. now exists (x, ac).
Qed.
Lemma in_task_list n sh lo p : In (n, sh, lo, p) (task_list a) <->
  (n = fst (ap_init a) /\ sh = [] /\ lo = snd (ap_init a) /\ p = 0) \/ exists k ar, is_task a n k p ar /\ sh = map fst (a_shared ar) /\ lo = a_local ar.
Proof.
  unfold task_list. rewrite !in_app_iff, !in_map_iff. split.
  - intros [[[= <- <- <- <-]|[]]|[H|[((m, t) & [= <- <- <- <-] & H)|((m, t) & [= <- <- <- <-] & H)]]].
    + left. auto.
    + right. destruct (ap_idle a) as [[m ar]|] eqn:E; [|destruct H]. destruct H as [[= <- <- <- <-]|[]]. exists KIdle, ar. split; [now apply T_idle|auto].
    + right. exists KSoft, (sw_args t). split; [now apply T_sw|auto].
    + right. exists (KHard (hw_binds t)), (hw_args t). split; [now apply T_hw|auto].
  - intros [(-> & -> & -> & ->)|(k & ar & H & -> & ->)]; [left; now left|]. destruct H as [n ar H|n t H|n t H].
    + right; left. rewrite H. now left.
    + right; right; right. now exists (n, t).
    + right; right; left. now exists (n, t).
Qed.
Lemma in_local_accesses (W : app_wf a) x : In x (local_accesses a) <-> exists n k p ar, is_task a n k p ar /\ In (x, External) (a_local ar).
Proof.
  assert (Hx : forall l, In x (externals l) <-> In (x, External) l).
  { intros l. unfold externals. rewrite in_map_iff. split.
    - intros ([y d] & <- & H). apply filter_In in H as [H E]. unfold is_external in E. simpl in *. now destruct d.
    - intros H. exists (x, External). split; [reflexivity|]. apply filter_In. auto. }
  unfold local_accesses. rewrite !in_app_iff, !in_flat_map, Hx. split.
  - intros [H|[H|[((n, t) & H & H')|((n, t) & H & H')]]].
    + apply (wf_init W) in H. discriminate.
    + destruct (ap_idle a) as [[n ar]|] eqn:E; [|destruct H]. apply Hx in H. exists n, KIdle, 0, ar. split; [now apply T_idle|auto].
    + apply Hx in H'. exists n, (KHard (hw_binds t)), (hw_prio t), (hw_args t). split; [now apply T_hw|auto].
    + apply Hx in H'. exists n, KSoft, (sw_prio t), (sw_args t). split; [now apply T_sw|auto].
  - intros (n & k & p & ar & H & H'). destruct H as [n ar H|n t H|n t H].
    + right; left. rewrite H. now apply Hx.
    + right; right; left. exists (n, t). split; [exact H|now apply Hx].
    + right; right; right. exists (n, t). split; [exact H|now apply Hx].
Qed.

(** ** Names *)
Lemma task_names_unique (W : app_wf a) n k p ar k' p' ar' : is_task a n k p ar -> is_task a n k' p' ar' -> k = k' /\ p = p' /\ ar = ar'.
Proof.
  pose proof (wf_names W) as N. unfold idle_names in N. inversion N as [|? ? _ N0]; subst. apply NoDup_app_inv in N0 as (_ & N1 & X1). apply NoDup_app_inv in N1 as (Nh & Ns & X2).
  assert (Hin : forall V (m : list (ident * V)) n v, In (n, v) m -> In n (map fst m)) by (intros V m m' v H; apply in_map_iff; now exists (m', v)).
  intros H H'. destruct H as [n ar H|n t H|n t H]; inversion H' as [? ? G|? ? G|? ? G]; subst.
  - rewrite H in G. injection G as <-. auto.
  - exfalso. rewrite H in X1. apply (X1 n (or_introl eq_refl)). apply in_app_iff. left. eapply Hin; eauto.
  - exfalso. rewrite H in X1. apply (X1 n (or_introl eq_refl)). apply in_app_iff. right. eapply Hin; eauto.
  - exfalso. rewrite G in X1. apply (X1 n (or_introl eq_refl)). apply in_app_iff. left. eapply Hin; eauto.
  - pose proof (@in_iget _ _ _ _ Nh H) as A. pose proof (@in_iget _ _ _ _ Nh G) as B. rewrite A in B. injection B as <-. auto.
  - exfalso. apply (X2 n); eapply Hin; eauto.
  - exfalso. rewrite G in X1. apply (X1 n (or_introl eq_refl)). apply in_app_iff. right. eapply Hin; eauto.
  - exfalso. apply (X2 n); eapply Hin; eauto.
  - pose proof (@in_iget _ _ _ _ Ns H) as A. pose proof (@in_iget _ _ _ _ Ns G) as B. rewrite A in B. injection B as <-. auto.
Qed.
Lemma init_not_task (W : app_wf a) k p ar : ~ is_task a (fst (ap_init a)) k p ar.
Proof.
  pose proof (wf_names W) as N. unfold idle_names in N. inversion N as [|? ? X _]; subst. intros H. apply X. rewrite !in_app_iff.
  inversion H as [? ? G|? ? G|? ? G]; subst; [left; rewrite G; now left|right; left|right; right]; apply in_map_iff; eexists; split; eauto; reflexivity.
Qed.

(** ** Ownership: ceilings and Sync *)
Definition prios (L : list (nat * ident * access)) x p : Prop := exists ac, In (p, x, ac) L.
Definition own_inv (L : list (nat * ident * access)) (s : anst) : Prop :=
  (forall x, In x (an_used s) <-> exists p, prios L x p) /\
  (forall x, match iget (an_own s) x with
             | None => forall p, ~ prios L x p
             | Some o => prios L x (own_prio o) /\ forall p, prios L x p -> p <= own_prio o
             end) /\
  (forall x r, iget (ap_shared a) x = Some r -> (forall p ac, In (p, x, ac) L -> ac = SharedRef) ->
     In (sr_ty r) (an_sync s) \/ forall p p', prios L x p -> prios L x p' -> p = p').
Lemma set_insert_in l x y : In y (set_insert l x) <-> In y l \/ y = x.
Proof. unfold set_insert. destruct (mem x l) eqn:E; [apply mem_in in E; split; [auto|intros [H| ->]; auto]|rewrite in_app_iff; simpl; split; [intros [H|[H|[]]]; auto|intros [H|H]; auto]]. Qed.
Lemma tset_insert_in l x y : In y (tset_insert l x) <-> In y l \/ y = x.
Proof.
  unfold tset_insert. destruct (existsb (Nat.eqb x) l) eqn:E.
  - apply existsb_exists in E as (z & H & E). apply Nat.eqb_eq in E. subst z. split; [auto|intros [H'| ->]; auto].
  - rewrite in_app_iff; simpl; split; [intros [H|[H|[]]]; auto|intros [H|H]; auto].
Qed.
Lemma prios_snoc L p x ac y q : prios (L ++ [(p, x, ac)]) y q <-> prios L y q \/ (y = x /\ q = p).
Proof.
  unfold prios. split.
  - intros (c & H). apply in_app_iff in H as [H|[[= <- <- <-]|[]]]; [left; eauto|auto].
  - intros [(c & H)|(-> & ->)]; [exists c; apply in_app_iff; auto|exists ac; apply in_app_iff; right; now left].
Qed.
Lemma own_step_inv L s p x ac : own_inv L s -> own_inv (L ++ [(p, x, ac)]) (own_step a s (p, x, ac)).
Proof.
  intros (I1 & I2 & I3).
  assert (U : forall y, In y (set_insert (an_used s) x) <-> exists q, prios (L ++ [(p, x, ac)]) y q).
  { intros y. rewrite set_insert_in, I1. split.
    - intros [(q & H)| ->]; [exists q; apply prios_snoc; auto|exists p; apply prios_snoc; auto].
    - intros (q & H). apply prios_snoc in H as [H|(-> & _)]; eauto. }
  assert (Old : forall y, (exists q, prios L y q) \/ (forall q, ~ prios L y q)).
  { intros y. specialize (I2 y). destruct (iget (an_own s) y) as [o|]; [left; exists (own_prio o); tauto|right; exact I2]. }
  pose proof (I2 x) as Ix. unfold own_step. destruct (iget (an_own s) x) as [o|] eqn:Eo.
  - destruct Ix as [Ix1 Ix2]. destruct (Nat.eqb_spec p (own_prio o)) as [Ep|Ep]; cbn [negb].
    + split; [exact U|]. split.
      * cbn [an_own]. intros y.
        assert (Em : match iget (match o with Owned _ => iinsert (an_own s) x (CoOwned p) | _ => an_own s end) y with
                     | Some w => Some (own_prio w) | None => None end = match iget (an_own s) y with Some w => Some (own_prio w) | None => None end).
        { destruct o; try reflexivity. rewrite iget_insert. destruct (ieq y x) eqn:E; [|reflexivity]. apply ieq_spec in E. subst y. rewrite Eo. simpl in *. now rewrite Ep. }
        specialize (I2 y). destruct (iget (match o with Owned _ => _ | _ => _ end) y) as [w|], (iget (an_own s) y) as [w'|] eqn:Ew; try discriminate.
        -- injection Em as ->. destruct I2 as [J1 J2]. split; [apply prios_snoc; auto|]. intros q H. apply prios_snoc in H as [H|(-> & ->)]; [auto|].
           rewrite Eo in Ew. injection Ew as <-. lia.
        -- intros q H. apply prios_snoc in H as [H|(-> & ->)]; [now apply I2 in H|congruence].
      * intros y r Hr Hs. destruct (I3 y r Hr) as [J|J]; [intros q c H; apply (Hs q); apply in_app_iff; auto|auto|]. right.
        intros q q' H H'. apply prios_snoc in H as [H|(-> & ->)]; apply prios_snoc in H' as [H'|(E & ->)]; subst; auto.
    + split; [exact U|]. split.
      * cbn [an_own]. intros y. rewrite iget_insert. destruct (ieq y x) eqn:E.
        -- apply ieq_spec in E. subst y. cbn [own_prio]. split.
           ++ destruct (Nat.max_spec (own_prio o) p) as [[_ ->]|[_ ->]]; apply prios_snoc; auto.
           ++ intros q H. apply prios_snoc in H as [H|(_ & ->)]; [apply Ix2 in H|]; lia.
        -- apply ieq_false in E. specialize (I2 y). destruct (iget (an_own s) y) as [w|].
           ++ destruct I2 as [J1 J2]. split; [apply prios_snoc; auto|]. intros q H. apply prios_snoc in H as [H|(-> & _)]; [auto|congruence].
           ++ intros q H. apply prios_snoc in H as [H|(-> & _)]; [now apply I2 in H|congruence].
      * intros y r Hr Hs. cbn [an_sync]. destruct (ieq y x) eqn:E.
        -- apply ieq_spec in E. subst y. assert (ac = SharedRef) as -> by (apply (Hs p); apply in_app_iff; right; now left).
           rewrite Hr. left. apply tset_insert_in. auto.
        -- apply ieq_false in E. destruct (I3 y r Hr) as [J|J]; [intros q c H; apply (Hs q); apply in_app_iff; auto| |].
           ++ left. destruct ac; [auto|]. destruct (iget (ap_shared a) x); [apply tset_insert_in|]; auto.
           ++ right. intros q q' H H'. apply prios_snoc in H as [H|(? & ?)]; apply prios_snoc in H' as [H'|(? & ?)]; subst; auto; congruence.
  - split; [exact U|]. split.
    + cbn [an_own]. intros y. rewrite iget_insert. destruct (ieq y x) eqn:E.
      * apply ieq_spec in E. subst y. cbn [own_prio]. split; [apply prios_snoc; auto|]. intros q H. apply prios_snoc in H as [H|(_ & ->)]; [now apply Ix in H|lia].
      * apply ieq_false in E. specialize (I2 y). destruct (iget (an_own s) y) as [w|].
        -- destruct I2 as [J1 J2]. split; [apply prios_snoc; auto|]. intros q H. apply prios_snoc in H as [H|(-> & _)]; [auto|congruence].
        -- intros q H. apply prios_snoc in H as [H|(-> & _)]; [now apply I2 in H|congruence].
    + intros y r Hr Hs. destruct (ieq y x) eqn:E.
      * apply ieq_spec in E. subst y. right. intros q q' H H'. apply prios_snoc in H as [H|(? & ?)]; [now apply Ix in H|]. apply prios_snoc in H' as [H'|(? & ?)]; [now apply Ix in H'|]. congruence.
      * apply ieq_false in E. destruct (I3 y r Hr) as [J|J]; [intros q c H; apply (Hs q); apply in_app_iff; auto|auto|].
        right. intros q q' H H'. apply prios_snoc in H as [H|(? & ?)]; apply prios_snoc in H' as [H'|(? & ?)]; subst; auto; congruence.
Qed.
Lemma own_loop_inv : own_inv (accesses a) (own_loop a).
Proof.
  unfold own_loop. rewrite <- (app_nil_l (accesses a)) at 1.
  assert (I : own_inv [] (mkAn [] [] [])). { split; [|split]; simpl. - intros x; simpl; split; [tauto|intros (p & ac & [])]. - intros x p (ac & []). - intros x r _ _. right. intros p p' (ac & []). }
  revert I. generalize (@nil (nat * ident * access)) as L, (mkAn [] [] []) as s. induction (accesses a) as [|[[p x] ac] l IH]; intros L s I; simpl; [now rewrite app_nil_r|].
  replace (L ++ (p, x, ac) :: l) with ((L ++ [(p, x, ac)]) ++ l) by now rewrite <- app_assoc. apply IH. now apply own_step_inv.
Qed.
End A.
