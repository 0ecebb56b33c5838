(** Proofs: the doubly linked list refines the FIFO specification. *)
From Verif Require Import Base WaitQueueModel WaitQueueSpec.
Set Implicit Arguments.

Section Proofs.
Context {W : Type}.
Notation link := (link W).
Notation wq := (wq W).
Implicit Types (q : list (nat * W)) (m : nat -> option link).

Definition keys q : list nat := map fst q.

Definition orelse {A} (o d : option A) : option A := match o with Some x => Some x | None => d end.

(** [seg m p q n]: memory holds the chain [q]; [p] is the [prev] of its first link and [n] the [next]
    of its last. *)
Fixpoint seg m (p : option nat) q (n : option nat) : Prop :=
  match q with
  | [] => True
  | (x, v) :: q' =>
      m x = Some (mkLink v (orelse (hd_error (keys q')) n) p false) /\ seg m (Some x) q' n
  end.

Lemma keys_app q1 q2 : keys (q1 ++ q2) = keys q1 ++ keys q2.
Proof. apply map_app. Qed.

Lemma orelse_None {A} (o : option A) : orelse o None = o.
Proof. now destruct o. Qed.

Lemma seg_app m p q1 q2 n :
  seg m p (q1 ++ q2) n <->
  seg m p q1 (orelse (hd_error (keys q2)) n) /\ seg m (orelse (lasto (keys q1)) p) q2 n.
Proof.
  revert p. induction q1 as [|[x v] q1 IH]; intros p; simpl.
  - tauto.
  - rewrite IH, keys_app, hd_error_app, lasto_cons.
    assert (E : orelse (match hd_error (keys q1) with Some y => Some y | None => hd_error (keys q2) end) n
            = orelse (hd_error (keys q1)) (orelse (hd_error (keys q2)) n)).
    { destruct (hd_error (keys q1)); reflexivity. }
    assert (E2 : orelse (match lasto (keys q1) with Some y => Some y | None => Some x end) p
            = orelse (lasto (keys q1)) (Some x)).
    { destruct (lasto (keys q1)); reflexivity. }
    rewrite E, E2. tauto.
Qed.

Lemma seg_frame m p q n a o : ~ In a (keys q) -> seg m p q n -> seg (upd m a o) p q n.
Proof.
  revert p. induction q as [|[x v] q IH]; intros p Hn Hs; simpl in *; [exact I|].
  destruct Hs as [Hx Hs]. split.
  - rewrite upd_other; [exact Hx|]. intros ->. apply Hn. now left.
  - apply IH; [tauto|exact Hs].
Qed.

Lemma seg_last m p q x v n n' :
  NoDup (keys (q ++ [(x, v)])) ->
  seg m p (q ++ [(x, v)]) n ->
  seg (upd m x (Some (mkLink v n' (orelse (lasto (keys q)) p) false))) p (q ++ [(x, v)]) n'.
Proof.
  intros Hnd Hs. apply seg_app in Hs as [Hs1 [Hs2 _]]. apply seg_app. simpl in *.
  rewrite keys_app in Hnd. apply NoDup_app_inv in Hnd as (_ & _ & Hd).
  split; [|split; [|exact I]].
  - apply seg_frame; [|exact Hs1]. intros Hin. apply (Hd x); simpl; auto.
  - now rewrite upd_same.
Qed.

Lemma seg_first m p p' x v q n :
  NoDup (keys ((x, v) :: q)) ->
  seg m p ((x, v) :: q) n ->
  seg (upd m x (Some (mkLink v (orelse (hd_error (keys q)) n) p' false))) p' ((x, v) :: q) n.
Proof.
  intros Hnd [Hx Hs]. simpl in *. inversion Hnd; subst. rewrite upd_same. split; [reflexivity|].
  now apply seg_frame.
Qed.

(** Refinement relation. *)
Record R (a : fifo W) (c : wq) : Prop := {
  R_nodup : NoDup (keys (f_q a));
  R_head : q_head c = hd_error (keys (f_q a));
  R_tail : q_tail c = lasto (keys (f_q a));
  R_seg : seg (q_mem c) None (f_q a) None;
  R_queued : forall x, f_st a x = Queued <-> In x (keys (f_q a));
  R_st : forall x, match f_st a x with
                   | Absent => q_mem c x = None
                   | Fresh v => q_mem c x = Some (mkLink v None None false)
                   | Queued => True
                   | Done => exists n, q_mem c x = Some n /\ l_popped n = true
                   end
}.

Lemma R_init : R fifo_new wq_new.
Proof. constructor; simpl; try constructor; try reflexivity; try tauto. discriminate. Qed.

Lemma keys_in q x : In x (keys q) -> exists q1 v q2, q = q1 ++ (x, v) :: q2.
Proof.
  unfold keys. rewrite in_map_iff. intros [[y v] [<- Hin]].
  apply in_split in Hin as (q1 & q2 & ->). now exists q1, v, q2.
Qed.

Lemma without_notin x q : ~ In x (keys q) -> without x q = q.
Proof.
  induction q as [|[y v] q IH]; simpl; intros Hn; [reflexivity|].
  destruct (Nat.eqb_spec y x) as [->|Hne]; simpl; [tauto|]. rewrite IH; tauto.
Qed.

Lemma without_mid x v q1 q2 :
  NoDup (keys (q1 ++ (x, v) :: q2)) -> without x (q1 ++ (x, v) :: q2) = q1 ++ q2.
Proof.
  rewrite keys_app. simpl. intros Hnd. apply NoDup_remove_2 in Hnd.
  unfold without. rewrite filter_app. simpl. rewrite Nat.eqb_refl. simpl.
  fold (without x q1) (without x q2).
  rewrite !without_notin; [reflexivity| |]; intros H; apply Hnd, in_or_app; tauto.
Qed.

Lemma upd_upd_same {A} (m : nat -> A) k x y j : upd (upd m k x) k y j = upd m k y j.
Proof. unfold upd. now destruct (Nat.eqb j k). Qed.

Lemma seg_ext m m' p q n : (forall j, In j (keys q) -> m j = m' j) -> seg m p q n -> seg m' p q n.
Proof.
  revert p. induction q as [|[x v] q IH]; intros p He Hs; simpl in *; [exact I|].
  destruct Hs as [Hx Hs]. split; [rewrite <- He; [exact Hx|now left]|].
  apply IH; [intros; apply He; now right|exact Hs].
Qed.

(** Status part of the relation under changes that touch only queued links and one other link. *)
Lemma st_update (st : nat -> status W) m m' a s' :
  (forall x, match st x with
             | Absent => m x = None
             | Fresh v => m x = Some (mkLink v None None false)
             | Queued => True
             | Done => exists n, m x = Some n /\ l_popped n = true end) ->
  (forall x, x <> a -> st x <> Queued -> m' x = m x) ->
  (match s' with
   | Absent => m' a = None
   | Fresh v => m' a = Some (mkLink v None None false)
   | Queued => True
   | Done => exists n, m' a = Some n /\ l_popped n = true end) ->
  forall x, match upd st a s' x with
            | Absent => m' x = None
            | Fresh v => m' x = Some (mkLink v None None false)
            | Queued => True
            | Done => exists n, m' x = Some n /\ l_popped n = true end.
Proof.
  intros Hst Hm Ha x. unfold upd. destruct (Nat.eqb_spec x a) as [->|Hne]; [exact Ha|].
  specialize (Hst x). specialize (Hm x Hne).
  destruct (st x); try rewrite Hm by discriminate; assumption.
Qed.

Lemma step_new a c x v a' r :
  R a c -> fifo_step a (ONew x v) = Some (a', r) ->
  exists c', wq_step c (ONew x v) = Some (c', r) /\ R a' c'.
Proof.
  intros HR Hs. simpl in Hs.
  assert (Hnq : f_st a x <> Queued) by (intros E; rewrite E in Hs; discriminate).
  assert (E : (a', r) = (mkFifo (f_q a) (upd (f_st a) x (Fresh v)), RUnit)).
  { destruct (f_st a x); congruence. }
  inversion E; subst; clear E Hs.
  eexists; split; [reflexivity|].
  assert (Hni : ~ In x (keys (f_q a))) by (rewrite <- (R_queued HR); exact Hnq).
  constructor; simpl.
  - apply HR.
  - apply HR.
  - apply HR.
  - apply seg_frame; [exact Hni|apply HR].
  - intros y. unfold upd. destruct (Nat.eqb_spec y x) as [->|Hne].
    + split; [discriminate|tauto].
    + apply HR.
  - apply st_update with (m := q_mem c); [apply HR| |now rewrite upd_same].
    intros y Hne _. now rewrite upd_other.
Qed.

Lemma step_free a c x a' r :
  R a c -> fifo_step a (OFree x) = Some (a', r) ->
  exists c', wq_step c (OFree x) = Some (c', r) /\ R a' c'.
Proof.
  intros HR Hs. simpl in Hs.
  assert (Hnq : f_st a x <> Queued) by (intros E; rewrite E in Hs; discriminate).
  assert (E : (a', r) = (mkFifo (f_q a) (upd (f_st a) x Absent), RUnit)).
  { destruct (f_st a x); congruence. }
  inversion E; subst; clear E Hs.
  eexists; split; [reflexivity|].
  assert (Hni : ~ In x (keys (f_q a))) by (rewrite <- (R_queued HR); exact Hnq).
  constructor; simpl.
  - apply HR.
  - apply HR.
  - apply HR.
  - apply seg_frame; [exact Hni|apply HR].
  - intros y. unfold upd. destruct (Nat.eqb_spec y x) as [->|Hne].
    + split; [discriminate|tauto].
    + apply HR.
  - apply st_update with (m := q_mem c); [apply HR| |now rewrite upd_same].
    intros y Hne _. now rewrite upd_other.
Qed.

Lemma step_push a c x a' r :
  R a c -> fifo_step a (OPush x) = Some (a', r) ->
  exists c', wq_step c (OPush x) = Some (c', r) /\ R a' c'.
Proof.
  intros HR Hs. simpl in Hs.
  destruct (f_st a x) as [|v| |] eqn:Est; try discriminate.
  injection Hs as <- <-.
  pose proof (R_st HR x) as Hx. rewrite Est in Hx.
  assert (Hni : ~ In x (keys (f_q a))) by (rewrite <- (R_queued HR), Est; discriminate).
  unfold wq_step, wq_push. rewrite (R_tail HR).
  destruct (lasto (keys (f_q a))) as [t|] eqn:Elast.
  - (* non-empty *)
    apply lasto_Some in Elast as [ks Eks].
    assert (Ht : In t (keys (f_q a))) by (rewrite Eks; apply in_or_app; right; now left).
    assert (Htx : t <> x) by (intros ->; tauto).
    destruct (f_q a) as [|[t' tv] q0 _] eqn:Eq using rev_ind.
    { now destruct ks. }
    rewrite keys_app in Eks. simpl in Eks. apply app_inj_tail in Eks as [_ ->].
    unfold set_prev. rewrite Hx. simpl.
    pose proof (R_seg HR) as Hseg. rewrite Eq in Hseg.
    pose proof Hseg as Hseg'. apply seg_app in Hseg' as [Hs1 [Hs2 _]]. simpl in Hs2.
    unfold set_next. rewrite upd_other by exact Htx. rewrite Hs2. simpl.
    eexists; split; [reflexivity|].
    pose proof (R_nodup HR) as Hnd. rewrite Eq in Hnd.
    constructor; simpl.
    + rewrite keys_app. apply NoDup_snoc; [exact Hnd|exact Hni].
    + rewrite (R_head HR), Eq, (keys_app (q0 ++ _)), keys_app. simpl.
      rewrite !hd_error_app. simpl. now destruct (hd_error (keys q0)).
    + rewrite keys_app. simpl. now rewrite lasto_snoc.
    + apply seg_app. split; [|split; [|exact I]].
      * simpl. 
        apply seg_last with (n' := Some x) in Hseg; [|exact Hnd].
        apply seg_frame with (a := x) (o := Some (mkLink v None (Some t) false)) in Hseg; [|exact Hni].
        eapply seg_ext; [|exact Hseg]. intros j Hj.
        assert (Hjx : j <> x) by (intros ->; tauto).
        rewrite upd_other by exact Hjx. unfold upd.
        destruct (Nat.eqb j t); [reflexivity|].
        apply Nat.eqb_neq in Hjx. now rewrite Hjx.
      * rewrite upd_other by auto. rewrite upd_same, keys_app. simpl. now rewrite lasto_snoc.
    + intros y. rewrite keys_app, in_app_iff. simpl. unfold upd.
      destruct (Nat.eqb_spec y x) as [->|Hne]; [tauto|].
      rewrite (R_queued HR y), Eq. split; [tauto|]. intros [?|[?|[]]]; [assumption|congruence].
    + apply st_update with (m := q_mem c); [apply HR| |exact I].
      intros y Hne Hyq. rewrite upd_other.
      * now rewrite upd_other.
      * intros ->. apply Hyq, (R_queued HR). rewrite Eq. exact Ht.
  - (* empty *)
    apply lasto_None in Elast. destruct (f_q a) as [|p q] eqn:Eq; [|discriminate].
    rewrite Hx. eexists; split; [reflexivity|].
    constructor; simpl; try reflexivity.
    + repeat constructor. simpl. tauto.
    + rewrite Hx. tauto.
    + intros y. unfold upd. destruct (Nat.eqb_spec y x) as [->|Hne]; [tauto|].
      rewrite (R_queued HR y), Eq. simpl. split; [tauto|]. intros [?|[]]; congruence.
    + apply st_update with (m := q_mem c); [apply HR|reflexivity|exact I].
Qed.

Lemma step_pop a c a' r :
  R a c -> fifo_step a OPop = Some (a', r) ->
  exists c', wq_step c OPop = Some (c', r) /\ R a' c'.
Proof.
  intros HR Hs. simpl in Hs. unfold wq_step, wq_pop. rewrite (R_head HR).
  destruct (f_q a) as [|[x v] q] eqn:Eq.
  - injection Hs as <- <-. simpl. eauto.
  - injection Hs as <- <-. simpl.
    pose proof (R_seg HR) as Hseg. rewrite Eq in Hseg. simpl in Hseg. destruct Hseg as [Hx Hseg].
    rewrite orelse_None in Hx. rewrite Hx. simpl. rewrite (R_tail HR), Eq.
    pose proof (R_nodup HR) as Hnd. rewrite Eq in Hnd. simpl in Hnd.
    inversion Hnd as [|? ? Hni Hnd']; subst.
    (* memory after clearing next.prev *)
    assert (H1 : exists m1, set_prev_opt (q_mem c) (hd_error (keys q)) None = Some m1 /\
                 m1 x = q_mem c x /\ seg m1 None q None /\
                 (forall j, j <> x -> ~ In j (keys q) -> m1 j = q_mem c j)).
    { destruct q as [|[y w] q]; simpl.
      - eexists; repeat split; reflexivity.
      - destruct Hseg as [Hy Hseg]. unfold set_prev. rewrite Hy. simpl.
        eexists; split; [reflexivity|]. simpl in Hni.
        inversion Hnd' as [|? ? Hni' Hnd'']; subst.
        split; [rewrite upd_other by (intros ->; tauto); reflexivity|]. split; [split|].
        + now rewrite upd_same.
        + now apply seg_frame.
        + intros j Hjx Hj. rewrite upd_other; [reflexivity|]. simpl in Hj. intros ->; tauto. }
    destruct H1 as (m1 & -> & Hm1x & Hm1seg & Hm1o).
    unfold set_next. rewrite Hm1x, Hx. simpl.
    unfold set_prev. rewrite upd_same. simpl.
    unfold set_popped. rewrite upd_same. simpl.
    eexists; split; [reflexivity|].
    constructor; simpl.
    + exact Hnd'.
    + reflexivity.
    + change (keys ((x, v) :: q)) with (x :: keys q). rewrite lasto_cons.
      destruct (lasto (keys q)) as [t|] eqn:El.
      * apply lasto_Some in El as [l' El].
        destruct (Nat.eqb_spec x t) as [->|_]; [|reflexivity].
        exfalso. apply Hni. rewrite El. apply in_or_app. right. now left.
      * now rewrite Nat.eqb_refl.
    + apply seg_frame; [exact Hni|]. apply seg_frame; [exact Hni|]. now apply seg_frame.
    + intros y. unfold upd. destruct (Nat.eqb_spec y x) as [->|Hne].
      * split; [discriminate|tauto].
      * rewrite (R_queued HR y), Eq. simpl. split; [|tauto]. intros [?|?]; [congruence|assumption].
    + apply st_update with (m := q_mem c); [apply HR| |].
      * intros y Hne Hyq. rewrite !upd_other by exact Hne. apply Hm1o; [exact Hne|].
        intros Hin. apply Hyq, (R_queued HR). rewrite Eq. now right.
      * rewrite upd_same. eexists; split; reflexivity.
Qed.

Lemma seg_mem m p q1 x v q2 n :
  seg m p (q1 ++ (x, v) :: q2) n ->
  m x = Some (mkLink v (orelse (hd_error (keys q2)) n) (orelse (lasto (keys q1)) p) false).
Proof. intros Hs. apply seg_app in Hs as [_ [Hx _]]. exact Hx. Qed.

Lemma NoDup_mid q1 x (v : W) q2 :
  NoDup (keys (q1 ++ (x, v) :: q2)) ->
  NoDup (keys (q1 ++ q2)) /\ ~ In x (keys q1) /\ ~ In x (keys q2).
Proof.
  rewrite !keys_app. simpl. intros H. pose proof (NoDup_remove_2 _ _ _ H) as H2.
  apply NoDup_remove_1 in H. rewrite in_app_iff in H2. tauto.
Qed.

Lemma step_remove a c x a' r :
  R a c -> fifo_step a (ORemove x) = Some (a', r) ->
  exists c', wq_step c (ORemove x) = Some (c', r) /\ R a' c'.
Proof.
  intros HR Hs. simpl in Hs.
  pose proof (R_st HR x) as Hx.
  destruct (f_st a x) as [|v| |] eqn:Est; try discriminate; injection Hs as <- <-.
  - (* Fresh: never pushed *)
    assert (Hni : ~ In x (keys (f_q a))) by (rewrite <- (R_queued HR), Est; discriminate).
    unfold wq_step, wq_remove, set_popped. rewrite Hx. simpl. rewrite (R_head HR).
    rewrite without_notin by exact Hni.
    assert (E : (match hd_error (keys (f_q a)) with
        | Some h => if x =? h then Some (mkWq None None (upd (q_mem c) x (Some (mkLink v None None true))))
           else Some (mkWq (hd_error (keys (f_q a))) (q_tail c) (upd (q_mem c) x (Some (mkLink v None None true))))
        | None => Some (mkWq (hd_error (keys (f_q a))) (q_tail c) (upd (q_mem c) x (Some (mkLink v None None true)))) end)
        = Some (mkWq (q_head c) (q_tail c) (upd (q_mem c) x (Some (mkLink v None None true))))).
    { rewrite (R_head HR). destruct (f_q a) as [|[h w] q]; simpl; [reflexivity|].
      destruct (Nat.eqb_spec x h) as [->|_]; [|reflexivity]. exfalso. apply Hni. now left. }
    rewrite (R_head HR) in E. rewrite E. eexists; split; [reflexivity|].
    constructor; simpl; try apply HR.
    + reflexivity.
    + apply seg_frame; [exact Hni|apply HR].
    + intros y. unfold upd. destruct (Nat.eqb_spec y x) as [->|Hne]; [split; [discriminate|tauto]|apply HR].
    + apply st_update with (m := q_mem c); [apply HR| |rewrite upd_same; eauto].
      intros y Hne _. now rewrite upd_other.
  - (* Queued *)
    assert (Hin : In x (keys (f_q a))) by (now apply (R_queued HR)).
    apply keys_in in Hin as (q1 & v & q2 & Eq).
    pose proof (R_seg HR) as Hseg. rewrite Eq in Hseg.
    pose proof Hseg as Hm. apply seg_mem in Hm. rewrite !orelse_None in Hm.
    pose proof (R_nodup HR) as Hnd. rewrite Eq in Hnd.
    assert (Ew : without x (f_q a) = q1 ++ q2) by (rewrite Eq; now apply without_mid).
    rewrite Ew.
    pose proof Hnd as Hnd0. apply NoDup_mid in Hnd0 as (Hnd' & Hn1 & Hn2).
    assert (Hst' : forall m', (forall y, y <> x -> ~ In y (keys (f_q a)) -> m' y = q_mem c y) ->
       (exists n, m' x = Some n /\ l_popped n = true) ->
       forall y, match upd (f_st a) x Done y with
            | Absent => m' y = None
            | Fresh v => m' y = Some (mkLink v None None false)
            | Queued => True
            | Done => exists n, m' y = Some n /\ l_popped n = true end).
    { intros m' Hm' Hd. apply st_update with (m := q_mem c); [apply HR| |exact Hd].
      intros y Hne Hyq. apply Hm'; [exact Hne|]. intros Hin. apply Hyq. now apply (R_queued HR). }
    assert (Hq' : forall y, upd (f_st a) x Done y = Queued <-> In y (keys (q1 ++ q2))).
    { intros y. unfold upd. destruct (Nat.eqb_spec y x) as [->|Hne].
      - rewrite keys_app, in_app_iff. split; [discriminate|tauto].
      - rewrite (R_queued HR y), Eq, !keys_app, !in_app_iff. simpl. split; [|tauto].
        intros [?|[?|?]]; [tauto|congruence|tauto]. }
    apply seg_app in Hseg as [Hseg1 Hseg2]. simpl in Hseg2. destruct Hseg2 as [_ Hseg2]. simpl in Hseg1.
    unfold wq_step, wq_remove. rewrite Hm. simpl.
    unfold set_popped. rewrite Hm. simpl.
    set (m0 := upd (q_mem c) x (Some (mkLink v (hd_error (keys q2)) (lasto (keys q1)) true))).
    assert (Hm0x : m0 x = Some (mkLink v (hd_error (keys q2)) (lasto (keys q1)) true)) by apply upd_same.
    assert (Hm0o : forall y, y <> x -> m0 y = q_mem c y) by (intros; now apply upd_other).
    assert (Hs1 : seg m0 None q1 (Some x)) by (now apply seg_frame).
    assert (Hs2 : seg m0 (Some x) q2 None) by (now apply seg_frame).
    destruct (lasto (keys q1)) as [pv|] eqn:El; destruct (hd_error (keys q2)) as [nx|] eqn:Eh.
    + (* middle *)
      destruct q1 as [|[pv' pw] q1 _] using rev_ind; [discriminate|].
      rewrite keys_app in El. simpl in El. rewrite lasto_snoc in El. injection El as ->.
      destruct q2 as [|[nx' nw] q2]; [discriminate|]. simpl in Eh. injection Eh as ->.
      pose proof Hs1 as Hs1'. apply seg_app in Hs1' as [_ [Hpv _]]. simpl in Hpv.
      destruct Hs2 as [Hnx Hs2].
      assert (Hpx : pv <> x) by (intros ->; apply Hn1; rewrite keys_app; apply in_or_app; right; now left).
      assert (Hnxx : nx <> x) by (intros ->; apply Hn2; now left).
      pose proof Hnd' as Hnd2. rewrite keys_app in Hnd2. apply NoDup_app_inv in Hnd2 as (HN1 & HN2 & HN3).
      assert (Hpn : pv <> nx).
      { intros ->. apply (HN3 nx); [rewrite keys_app; apply in_or_app; right; now left|now left]. }
      unfold set_next. rewrite Hpv. simpl.
      unfold set_prev. rewrite upd_other by auto. rewrite Hnx. simpl.
      eexists; split; [reflexivity|].
      constructor; simpl.
      * exact Hnd'.
      * rewrite (R_head HR), Eq, !keys_app. simpl. rewrite !hd_error_app. simpl.
        now destruct (hd_error (keys q1)).
      * rewrite (R_tail HR), Eq, !keys_app. simpl. rewrite !lasto_app, !lasto_cons.
        now destruct (lasto (keys q2)).
      * apply seg_app. simpl. split.
        -- apply seg_frame.
           { intros Hin. apply (HN3 nx); [exact Hin|now left]. }
           apply seg_last with (n' := Some nx) in Hs1; [exact Hs1|exact HN1].
        -- rewrite keys_app. simpl. rewrite lasto_snoc. simpl. rewrite upd_same. split; [reflexivity|].
           simpl in HN2. inversion HN2; subst.
           apply seg_frame; [assumption|]. apply seg_frame; [|exact Hs2].
           intros Hin. apply (HN3 pv); [rewrite keys_app; apply in_or_app; right; now left|now right].
      * exact Hq'.
      * apply Hst'.
        -- intros y Hyx Hy. rewrite Eq in Hy. rewrite !keys_app, !in_app_iff in Hy. simpl in Hy.
           rewrite !upd_other by (intros ->; tauto). auto.
        -- rewrite !upd_other by auto. eauto.
    + (* last *)
      destruct q1 as [|[pv' pw] q1 _] using rev_ind; [discriminate|].
      rewrite keys_app in El. simpl in El. rewrite lasto_snoc in El. injection El as ->.
      destruct q2 as [|[nx' nw] q2]; [|discriminate].
      pose proof Hs1 as Hs1'. apply seg_app in Hs1' as [_ [Hpv _]]. simpl in Hpv.
      assert (Hpx : pv <> x) by (intros ->; apply Hn1; rewrite keys_app; apply in_or_app; right; now left).
      rewrite app_nil_r in *.
      unfold set_next. rewrite Hpv. simpl.
      eexists; split; [reflexivity|].
      constructor; simpl.
      * exact Hnd'.
      * rewrite (R_head HR), Eq, !keys_app. simpl. rewrite !hd_error_app. simpl.
        now destruct (hd_error (keys q1)).
      * rewrite keys_app. simpl. now rewrite lasto_snoc.
      * apply seg_last with (n' := None) in Hs1; [exact Hs1|exact Hnd'].
      * exact Hq'.
      * apply Hst'.
        -- intros y Hyx Hy. rewrite Eq in Hy. rewrite !keys_app, !in_app_iff in Hy. simpl in Hy.
           rewrite !upd_other by (intros ->; tauto). auto.
        -- rewrite !upd_other by auto. eauto.
    + (* first *)
      apply lasto_None in El. destruct q1 as [|? ?]; [|discriminate]. simpl in *.
      destruct q2 as [|[nx' nw] q2]; [discriminate|]. simpl in Eh. injection Eh as ->.
      destruct Hs2 as [Hnx Hs2].
      assert (Hnxx : nx <> x) by (intros ->; apply Hn2; now left).
      unfold set_prev. rewrite Hnx. simpl.
      eexists; split; [reflexivity|].
      constructor; simpl.
      * exact Hnd'.
      * reflexivity.
      * rewrite (R_tail HR), Eq. simpl. rewrite !lasto_cons. now destruct (lasto (keys q2)).
      * split; [now rewrite upd_same|]. inversion Hnd'; subst. now apply seg_frame.
      * exact Hq'.
      * apply Hst'.
        -- intros y Hyx Hy. rewrite Eq in Hy. simpl in Hy.
           rewrite !upd_other by (intros ->; tauto). auto.
        -- rewrite !upd_other by auto. eauto.
    + (* alone *)
      apply lasto_None in El. destruct q1 as [|? ?]; [|discriminate].
      apply hd_error_None in Eh. destruct q2 as [|? ?]; [|discriminate].
      rewrite (R_head HR), Eq. simpl. rewrite Nat.eqb_refl.
      eexists; split; [reflexivity|].
      constructor; simpl; try constructor; try reflexivity; try (apply Hq').
      apply Hst'; [|eauto]. intros; auto.
  - (* Done *)
    destruct Hx as (n & Hx & Hp).
    assert (Hni : ~ In x (keys (f_q a))) by (rewrite <- (R_queued HR), Est; discriminate).
    unfold wq_step, wq_remove. rewrite Hx, Hp. eexists; split; [reflexivity|].
    rewrite without_notin by exact Hni.
    constructor; simpl; try apply HR.
    + intros y. unfold upd. destruct (Nat.eqb_spec y x) as [->|Hne]; [split; [discriminate|tauto]|apply HR].
    + apply st_update with (m := q_mem c); [apply HR|reflexivity|eauto].
Qed.

Lemma step_refines a c o a' r :
  R a c -> fifo_step a o = Some (a', r) -> exists c', wq_step c o = Some (c', r) /\ R a' c'.
Proof.
  intros HR Hs. destruct o.
  - eapply step_new; eauto.
  - eapply step_push; eauto.
  - eapply step_pop; eauto.
  - eapply step_remove; eauto.
  - simpl in Hs. injection Hs as <- <-. simpl. eexists; split; [|exact HR].
    unfold wq_is_empty. rewrite (R_head HR). now destruct (f_q a).
  - simpl in *. pose proof (R_st HR a0) as Hx. unfold link_is_popped.
    destruct (f_st a a0) eqn:E; try discriminate; injection Hs as <- <-.
    + rewrite Hx. simpl. eauto.
    + assert (Hin : In a0 (keys (f_q a))) by (now apply (R_queued HR)).
      apply keys_in in Hin as (q1 & v & q2 & Eq).
      pose proof (R_seg HR) as Hseg. rewrite Eq in Hseg. apply seg_mem in Hseg. rewrite Hseg. simpl. eauto.
    + destruct Hx as (n & -> & ->). eauto.
  - eapply step_free; eauto.
Qed.

Lemma run_refines ops : forall a c a' rs,
  R a c -> fifo_run a ops = Some (a', rs) -> exists c', wq_run c ops = Some (c', rs) /\ R a' c'.
Proof.
  induction ops as [|o ops IH]; intros a c a' rs HR Hr; cbn [fifo_run wq_run] in *.
  - injection Hr as <- <-. eauto.
  - destruct (fifo_step a o) as [[a1 r]|] eqn:E1; [|discriminate].
    destruct (fifo_run a1 ops) as [[a2 rs']|] eqn:E2; [|discriminate].
    injection Hr as <- <-.
    destruct (step_refines _ HR E1) as (c1 & -> & HR1).
    destruct (IH _ _ _ _ HR1 E2) as (c2 & -> & HR2). eauto.
Qed.

Lemma run_from_new ops a' rs :
  fifo_run fifo_new ops = Some (a', rs) ->
  exists c' : wq, wq_run wq_new ops = Some (c', rs).
Proof. intros H. destruct (run_refines ops R_init H) as (c' & ? & _). eauto. Qed.

Lemma fifo_run_app o1 : forall (a : fifo W) o2,
  fifo_run a (o1 ++ o2) =
  match fifo_run a o1 with
  | None => None
  | Some (a1, r1) => match fifo_run a1 o2 with None => None | Some (a2, r2) => Some (a2, r1 ++ r2) end
  end.
Proof.
  induction o1 as [|o o1 IH]; intros a o2; cbn [fifo_run app].
  - now destruct (fifo_run a o2) as [[? ?]|].
  - destruct (fifo_step a o) as [[a1 r]|]; [|reflexivity]. rewrite IH.
    destruct (fifo_run a1 o1) as [[a2 r2]|]; [|reflexivity].
    now destruct (fifo_run a2 o2) as [[? ?]|].
Qed.

Lemma fifo_drain q : forall (a : fifo W), f_q a = q ->
  exists a', fifo_run a (repeat OPop (length q)) = Some (a', map (fun p => RPop (Some (snd p))) q) /\ f_q a' = [].
Proof.
  induction q as [|[x v] q IH]; intros a Hq; cbn [length repeat fifo_run map].
  - eauto.
  - cbn [fifo_step]. rewrite Hq.
    destruct (IH (mkFifo q (upd (f_st a) x Done)) eq_refl) as (a' & -> & ?). cbn. eauto.
Qed.

(** After any legal history, removing link [x] and then popping until empty returns exactly the other
    entries in their order, and then reports empty. *)
Lemma remove_then_drain ops (a : fifo W) rs x :
  fifo_run fifo_new ops = Some (a, rs) -> f_st a x <> Absent ->
  exists c' : wq,
    wq_run wq_new (ops ++ [ORemove x; OIsPopped x] ++ repeat OPop (length (without x (f_q a))) ++ [OPop; OIsEmpty]) =
    Some (c', rs ++ [RUnit; RBool true] ++ map (fun p => RPop (Some (snd p))) (without x (f_q a))
                 ++ [RPop None; RBool true]).
Proof.
  intros H Hst.
  destruct (@fifo_drain (without x (f_q a)) (mkFifo (without x (f_q a)) (upd (f_st a) x Done)) eq_refl)
    as (a2 & Hd & He).
  apply run_from_new with (a' := a2).
  rewrite fifo_run_app, H. cbn [app fifo_run fifo_step].
  assert (E : match f_st a x with
              | Absent => None
              | _ => Some (mkFifo (without x (f_q a)) (upd (f_st a) x Done), @RUnit W) end
            = Some (mkFifo (without x (f_q a)) (upd (f_st a) x Done), RUnit)).
  { destruct (f_st a x); congruence. }
  rewrite E. cbn [f_st]. rewrite upd_same. rewrite fifo_run_app, Hd.
  cbn [fifo_run fifo_step]. rewrite He. cbn [fifo_run]. rewrite He. reflexivity.
Qed.

Lemma without_other x y v (q : list (nat * W)) : In (y, v) (without x q) <-> In (y, v) q /\ y <> x.
Proof.
  unfold without. rewrite filter_In. simpl. destruct (Nat.eqb_spec y x); simpl; intuition congruence.
Qed.

Lemma without_absent x (q : list (nat * W)) : ~ In x (map fst q) -> without x q = q.
Proof.
  induction q as [|[y v] q IH]; simpl; [reflexivity|]. intros H.
  destruct (Nat.eqb_spec y x) as [->|]; [exfalso; tauto|]. simpl. rewrite IH; tauto.
Qed.

(** Removing a link that was already popped or removed changes nothing. *)
Lemma remove_done_noop ops (a : fifo W) rs x :
  fifo_run fifo_new ops = Some (a, rs) -> f_st a x = Done -> without x (f_q a) = f_q a.
Proof.
  intros H Hd. destruct (run_refines ops R_init H) as (c & _ & HR).
  apply without_absent. intros Hin.
  assert (E : f_st a x = Queued) by (apply (R_queued HR); exact Hin). congruence.
Qed.

End Proofs.
