From Coq Require Import NArith.
From Verif Require Import Base LTS LockModel LockSpec LockProofs LockBackends LockBackendProofs LockSourceProofs.
Set Implicit Arguments.

Section Final.
Context (B : backend) (A : lapp) (top : nat) (m0 : bm B) (x0 : bs B) (Good : bm B -> Prop) (okc : bm B -> nat -> Prop) (free : nat -> nat -> bool).
Context (Kb : backend_base B A top m0 Good okc free) (K : backend_ok B A top m0 Good okc free) (Hok : app_ok A top).
Notation ceil := (l_ceil A).

Lemma holds_uses f fs m r : wf A m0 Good okc (f :: fs) m -> holds f r -> exists t, f_task f = Some t /\ may_run A f t /\ l_uses A t r = true.
Proof.
  intros H (e & He & Er & Ep). destruct (@wf_uses B A m0 Good okc f fs m r H) as (t & Et & Hu); [exists e; auto|].
  exists t. repeat split; auto. eapply wf_task; eauto.
Qed.

Lemma gen_excl s r : (forall i t, In i (l_lines A) -> l_line A t = Some i -> l_uses A t r = true -> free (ceil r) i = false) ->
  mreach A m0 x0 s -> excl_on A r s.
Proof.
  intros Hfree Hr above f below Es Hh. pose proof (wf_reach K Hok Hr) as W. rewrite Es in W.
  assert (H1 : forall g t, In g above -> may_run A g t -> l_uses A t r = false).
  { intros g t Hg Hm. destruct (wf_above K Hok _ _ _ W g Hg) as (i & Hl & Hin & Hf & _). specialize (Hf f r (or_introl eq_refl) Hh).
    apply not_true_is_false. intros Hu. unfold may_run in Hm. rewrite Hl in Hm. rewrite (Hfree i t Hin Hm Hu) in Hf. discriminate. }
  split; [exact H1|]. split.
  - intros g Hg Hhg. apply in_app_iff in Hg as [Hg|Hg].
    + apply in_split in Hg as (a1 & a2 & ->). rewrite <- app_assoc in W. simpl in W. apply wf_tail in W as [m' W].
      destruct (holds_uses W Hhg) as (t & _ & Hm & Hu). rewrite (H1 g t) in Hu; [discriminate| |exact Hm]. apply in_app_iff. right. now left.
    + apply in_split in Hg as (b1 & b2 & ->).
      assert (E : above ++ f :: b1 ++ g :: b2 = (above ++ f :: b1) ++ g :: b2) by (rewrite <- app_assoc; reflexivity).
      pose proof W as W2. apply wf_tail in W2 as [m' W2]. destruct (holds_uses W2 Hh) as (t & _ & Hm & Hu). rewrite E in W.
      destruct (wf_above K Hok _ _ _ W f) as (i & Hl & Hin & Hf & _); [apply in_app_iff; right; now left|]. specialize (Hf g r (or_introl eq_refl) Hhg).
      unfold may_run in Hm. rewrite Hl in Hm. rewrite (Hfree i t Hin Hm Hu) in Hf. discriminate.
  - apply wf_tail in W as [m' W]. apply wf_nodup in W. destruct Hh as (e & He & Er & _). apply in_split in He as (l1 & l2 & El).
    exists l1, e, l2. repeat split; auto. intros e' He' X. rewrite El, map_app in W. simpl in W. apply NoDup_remove_2 in W. apply W.
    rewrite <- map_app. rewrite Er, <- X. now apply in_map.
Qed.

Lemma gen_restore (s1 s2 : mach B) : mreach A m0 x0 s1 -> mreach A m0 x0 s2 -> activity s1 = activity s2 -> m_mask s1 = m_mask s2.
Proof. intros R1 R2 E. exact (wf_fun (wf_reach Kb Hok R1) (wf_reach Kb Hok R2) E). Qed.

Lemma gen_idle (s : mach B) : mreach A m0 x0 s -> all_idle s -> m_mask s = m0.
Proof.
  intros R E. pose proof (wf_reach Kb Hok R) as W. unfold all_idle, activity in E. destruct s as [m [|f [|]]]; simpl in *; try discriminate.
  injection E as E1 E2 E3. apply map_eq_nil in E3. eapply wf_idle; eauto.
Qed.

Lemma can_take_spec (s : mach B) i : can_take A s i = true <-> In i (l_lines A) /\ admits B (m_mask s) i = true /\ forall f, In f (m_stack s) -> lprio A (f_line f) < l_prio A i.
Proof.
  unfold can_take. rewrite !andb_true_iff, forallb_forall, existsb_exists. split.
  - intros [[(x & Hx & E) Ha] Hf]. apply Nat.eqb_eq in E. subst x. repeat split; auto. intros f Hin. now apply Nat.ltb_lt, Hf.
  - intros (H1 & H2 & H3). repeat split; auto; [exists i; split; auto; apply Nat.eqb_refl|]. intros f Hin. now apply Nat.ltb_lt, H3.
Qed.

Lemma gen_take s i : mreach A m0 x0 s -> can_take A s i = true ->
  In i (l_lines A) /\ (forall f, In f (m_stack s) -> lprio A (f_line f) < l_prio A i) /\ (forall f r, In f (m_stack s) -> holds f r -> free (ceil r) i = true).
Proof.
  intros R H. apply can_take_spec in H as (H1 & H2 & H3). repeat split; auto. intros f r Hin Hh. eapply (wf_down K Hok); eauto. now apply (wf_reach K Hok R).
Qed.

Lemma gen_no_overblock s i : mreach A m0 x0 s -> In i (l_lines A) -> admits B m0 i = true ->
  (forall f, In f (m_stack s) -> lprio A (f_line f) < l_prio A i) -> (forall f r, In f (m_stack s) -> in_lock f r -> free (ceil r) i = true) -> can_take A s i = true.
Proof. intros R H1 H2 H3 H4. apply can_take_spec. repeat split; auto. eapply (wf_up Kb Hok); eauto. now apply (wf_reach Kb Hok R). Qed.

Lemma gen_increasing s above f below g : mreach A m0 x0 s -> m_stack s = above ++ f :: below -> In g above -> lprio A (f_line f) < lprio A (f_line g).
Proof.
  intros R E Hg. pose proof (wf_reach K Hok R) as W. rewrite E in W. destruct (wf_above K Hok _ _ _ W g Hg) as (i & Hl & _ & _ & Hp). rewrite Hl. simpl. apply Hp. now left.
Qed.

Lemma gen_finish (s : mach B) : mreach A m0 x0 s ->
  ((exists l s', finishing l /\ mstep A s l = Some s') \/ (all_idle s /\ m_mask s = m0)) /\
  exists n, forall ls s', Forall finishing ls -> run (@mstep B A) s ls = Some s' -> length ls <= n.
Proof.
  intros R. split.
  - destruct (@finish_progress B A m0 Good okc s (wf_reach Kb Hok R)) as [H|(f & E & E1 & E2 & E3)]; [now left|right].
    assert (all_idle s) by (unfold all_idle, activity; rewrite E; simpl; rewrite E1, E2, E3; reflexivity). split; [assumption|]. eapply gen_idle; eauto.
  - exists (scost A s). intros ls s'. apply finish_bound.
Qed.

Lemma gen_lock_enabled (s : mach B) f fs t r : m_stack s = f :: fs -> f_task f = Some t -> calm (f_ents f) = true -> l_uses A t r = true -> ~ in_lock f r ->
  nest_ok A (f_ents f) r = true -> exists s', mstep A s (LLock r) = Some s'.
Proof.
  intros E Et Hc Hu Hn Hnest. unfold mstep. rewrite E, Et, Hu, Hc, Hnest. simpl. replace (locked (f_ents f) r) with false; [simpl; eauto|].
  symmetry. apply not_true_is_false. intros X. apply locked_spec in X. exact (Hn X).
Qed.
End Final.
