From Verif Require Import Base TimerListModel TimerListSpec.
Set Implicit Arguments.

Section Proofs.
Context {V : Type} (lt : V -> V -> bool).
Notation tlink := (tlink V).
Notation tlist := (tlist V).
Implicit Types (q : list (nat * V)) (m : nat -> option tlink).

Definition keys q : list nat := map fst q.
Definition orelse {A} (o d : option A) : option A := match o with Some x => Some x | None => d end.

Fixpoint seg m q (n : option nat) : Prop :=
  match q with
  | [] => True
  | (x, v) :: q' => m x = Some (mkTLink v (orelse (hd_error (keys q')) n)) /\ seg m q' n
  end.

Lemma keys_app q1 q2 : keys (q1 ++ q2) = keys q1 ++ keys q2.
Proof. apply map_app. Qed.

Lemma orelse_None {A} (o : option A) : orelse o None = o.
Proof. now destruct o. Qed.

Lemma seg_app m q1 q2 n :
  seg m (q1 ++ q2) n <-> seg m q1 (orelse (hd_error (keys q2)) n) /\ seg m q2 n.
Proof.
  induction q1 as [|[x v] q1 IH]; simpl; [tauto|].
  rewrite IH, keys_app, hd_error_app.
  replace (orelse (match hd_error (keys q1) with Some y => Some y | None => hd_error (keys q2) end) n)
    with (orelse (hd_error (keys q1)) (orelse (hd_error (keys q2)) n))
    by (destruct (hd_error (keys q1)); reflexivity).
  tauto.
Qed.

Lemma seg_frame m q n a o : ~ In a (keys q) -> seg m q n -> seg (upd m a o) q n.
Proof.
  induction q as [|[x v] q IH]; intros Hn Hs; simpl in *; [exact I|].
  destruct Hs as [Hx Hs]. split.
  - rewrite upd_other; [exact Hx|]. intros ->. apply Hn. now left.
  - apply IH; [tauto|exact Hs].
Qed.

Record R (a : slist V) (c : tlist) : Prop := {
  R_nodup : NoDup (keys (s_q a));
  R_head : t_head c = hd_error (keys (s_q a));
  R_seg : seg (t_mem c) (s_q a) None;
  R_queued : forall x, s_st a x = TQueued <-> In x (keys (s_q a));
  R_st : forall x, match s_st a x with
                   | TFresh v => t_mem c x = Some (mkTLink v None)
                   | _ => True
                   end
}.

Lemma R_init : R slist_new tl_new.
Proof. constructor; simpl; try constructor; try reflexivity; try tauto. discriminate. Qed.

Lemma ins_keys a v q x : In x (keys (ins lt a v q)) <-> x = a \/ In x (keys q).
Proof.
  induction q as [|[b w] q IH]; simpl; [intuition|].
  destruct (lt v w); simpl; [intuition|]. rewrite IH. intuition.
Qed.

Lemma ins_nodup a v q : NoDup (keys q) -> ~ In a (keys q) -> NoDup (keys (ins lt a v q)).
Proof.
  induction q as [|[b w] q IH]; simpl; intros Hnd Hni.
  - repeat constructor. tauto.
  - destruct (lt v w); simpl.
    + constructor; assumption.
    + inversion Hnd; subst. constructor; [|apply IH; tauto].
      rewrite ins_keys. intros [->|H]; [apply Hni; now left|tauto].
Qed.

Lemma ins_length a v q : length (ins lt a v q) = S (length q).
Proof. induction q as [|[b w] q IH]; simpl; [reflexivity|]. destruct (lt v w); simpl; congruence. Qed.

(** The insertion loop, started at link [(b,w)] followed by [q]. *)
Lemma insert_loop_ok q : forall fuel m b w a v,
  length q <= fuel ->
  NoDup (keys ((b, w) :: q)) -> ~ In a (keys ((b, w) :: q)) ->
  seg m ((b, w) :: q) None -> m a = Some (mkTLink v None) ->
  exists m', insert_loop lt fuel m b (hd_error (keys q)) a v = Some m' /\
             seg m' ((b, w) :: ins lt a v q) None /\
             (forall y, y <> a -> ~ In y (keys ((b, w) :: q)) -> m' y = m y).
Proof.
  induction q as [|[c u] q IH]; intros fuel m b w a v Hf Hnd Hni Hseg Hma.
  - simpl in *. destruct Hseg as [Hb _].
    assert (E : insert_loop lt fuel m b None a v = t_set_next m b (Some a)) by (now destruct fuel).
    rewrite E. unfold t_set_next. rewrite Hb. eexists; split; [reflexivity|]. split; [split; [|split; [|exact I]]|].
    + now rewrite upd_same.
    + rewrite upd_other; [exact Hma|]. intros ->. apply Hni. now left.
    + intros y Hy Hn. rewrite upd_other; [reflexivity|]. intros ->. apply Hn. now left.
  - simpl in Hf. destruct fuel as [|fuel]; [lia|].
    simpl in Hseg. destruct Hseg as (Hb & Hc & Hseg). rewrite ?orelse_None in *.
    cbn [hd_error keys map fst insert_loop].
    rewrite Hc. cbn [tl_val tl_next]. cbn [ins].
    simpl in Hni.
    inversion Hnd as [|? ? Hb' Hnd']; subst. inversion Hnd' as [|? ? Hc' Hnd'']; subst. simpl in Hb'.
    destruct (lt v u) eqn:Elt.
    + unfold t_set_next. rewrite Hma. cbn [tl_val].
      rewrite upd_other by (intros ->; tauto). rewrite Hb. cbn [tl_val].
      eexists; split; [reflexivity|]. cbn [seg]. split; [split; [|split; [|split]]|].
      * rewrite upd_same. reflexivity.
      * rewrite upd_other by (intros ->; tauto). rewrite upd_same. reflexivity.
      * rewrite !upd_other by (intros ->; tauto). rewrite Hc. now rewrite orelse_None.
      * apply seg_frame; [tauto|]. apply seg_frame; [tauto|]. exact Hseg.
      * intros y Hy Hn. simpl in Hn. now rewrite !upd_other by (intros ->; tauto).
    + destruct (IH fuel m c u a v) as (m' & -> & Hs' & Ho).
      * lia.
      * exact Hnd'.
      * simpl. tauto.
      * simpl. rewrite ?orelse_None. split; assumption.
      * exact Hma.
      * eexists; split; [reflexivity|]. split.
        -- split; [|exact Hs'].
           rewrite Ho; [exact Hb|intros ->; tauto|simpl; tauto].
        -- intros y Hy Hn. simpl in Hn. apply Ho; [exact Hy|simpl; tauto].
Qed.

Lemma drop_notin x q : ~ In x (keys q) -> drop_addr x q = q.
Proof.
  induction q as [|[y v] q IH]; simpl; intros Hn; [reflexivity|].
  destruct (Nat.eqb_spec y x) as [->|Hne]; simpl; [tauto|]. rewrite IH; tauto.
Qed.

Lemma drop_in x q y : In y (keys (drop_addr x q)) <-> In y (keys q) /\ y <> x.
Proof.
  unfold drop_addr. induction q as [|[z v] q IH]; simpl; [tauto|].
  destruct (Nat.eqb_spec z x) as [->|Hne]; simpl; rewrite IH; intuition congruence.
Qed.

Lemma drop_nodup x q : NoDup (keys q) -> NoDup (keys (drop_addr x q)).
Proof.
  induction q as [|[z v] q IH]; simpl; intros H; [constructor|]. inversion H; subst.
  destruct (Nat.eqb z x); simpl; [auto|]. constructor; [|auto].
  rewrite drop_in. tauto.
Qed.

Lemma delete_loop_ok q : forall fuel m b w a,
  length q <= fuel ->
  NoDup (keys ((b, w) :: q)) -> a <> b ->
  seg m ((b, w) :: q) None ->
  exists m', delete_loop fuel m b (hd_error (keys q)) a = Some m' /\
             seg m' ((b, w) :: drop_addr a q) None /\
             (forall y, ~ In y (keys ((b, w) :: q)) -> m' y = m y).
Proof.
  induction q as [|[c u] q IH]; intros fuel m b w a Hf Hnd Hab Hseg.
  - exists m. split; [now destruct fuel|]. split; [exact Hseg|reflexivity].
  - simpl in Hf. destruct fuel as [|fuel]; [lia|].
    simpl in Hseg. destruct Hseg as (Hb & Hc & Hseg). rewrite ?orelse_None in *.
    inversion Hnd as [|? ? Hb' Hnd']; subst. inversion Hnd' as [|? ? Hc' Hnd'']; subst. simpl in Hb'.
    cbn [hd_error keys map fst delete_loop]. rewrite Hc. cbn [tl_val tl_next].
    destruct (Nat.eqb_spec c a) as [->|Hne].
    + unfold t_set_next. rewrite Hb. cbn [tl_val]. eexists; split; [reflexivity|].
      replace (drop_addr a ((a, u) :: q)) with q.
      2:{ unfold drop_addr. simpl. rewrite Nat.eqb_refl. simpl. symmetry. apply drop_notin. exact Hc'. }
      split.
      * simpl. rewrite upd_same. rewrite ?orelse_None. split; [reflexivity|]. apply seg_frame; [tauto|exact Hseg].
      * intros y Hn. simpl in Hn. rewrite upd_other; [reflexivity|intros ->; tauto].
    + destruct (IH fuel m c u a) as (m' & E & Hs' & Ho).
      * lia.
      * exact Hnd'.
      * congruence.
      * simpl. rewrite ?orelse_None. split; assumption.
      * unfold keys in *. rewrite E. eexists; split; [reflexivity|].
        assert (Ed : drop_addr a ((c, u) :: q) = (c, u) :: drop_addr a q).
        { unfold drop_addr. simpl. apply Nat.eqb_neq in Hne. now rewrite Hne. }
        rewrite Ed. split.
        -- split; [|exact Hs']. rewrite Ho; [exact Hb|simpl; tauto].
        -- intros y Hn. simpl in Hn. apply Ho. simpl. tauto.
Qed.

Lemma step_refines fuel a c o a' r :
  length (s_q a) <= fuel ->
  R a c -> slist_step lt a o = Some (a', r) ->
  exists c', tl_step lt fuel c o = Some (c', r) /\ R a' c'.
Proof.
  intros Hf HR Hs. destruct o as [x v|x|x|p|x]; simpl in Hs.
  - (* new *)
    assert (Hnq : s_st a x <> TQueued) by (intros E; rewrite E in Hs; discriminate).
    assert (E : (a', r) = (mkSList (s_q a) (upd (s_st a) x (TFresh v)), TUnit))
      by (destruct (s_st a x); congruence).
    inversion E; subst; clear E Hs. eexists; split; [reflexivity|].
    assert (Hni : ~ In x (keys (s_q a))) by (rewrite <- (R_queued HR); exact Hnq).
    constructor; simpl; try apply HR.
    + apply seg_frame; [exact Hni|apply HR].
    + intros y. unfold upd. destruct (Nat.eqb_spec y x) as [->|]; [split; [discriminate|tauto]|apply HR].
    + intros y. unfold upd. destruct (Nat.eqb_spec y x) as [->|]; [reflexivity|apply (R_st HR y)].
  - (* insert *)
    destruct (s_st a x) as [|v| |] eqn:Est; try discriminate. injection Hs as <- <-.
    pose proof (R_st HR x) as Hx. rewrite Est in Hx.
    assert (Hni : ~ In x (keys (s_q a))) by (rewrite <- (R_queued HR), Est; discriminate).
    assert (Hqd : forall y, upd (s_st a) x TQueued y = TQueued <-> In y (keys (ins lt x v (s_q a)))).
    { intros y. rewrite ins_keys. unfold upd. destruct (Nat.eqb_spec y x) as [->|]; [tauto|].
      rewrite (R_queued HR). intuition. }
    assert (Hst : forall m', (forall y, y <> x -> ~ In y (keys (s_q a)) -> m' y = t_mem c y) ->
       forall y, match upd (s_st a) x TQueued y with TFresh w => m' y = Some (mkTLink w None) | _ => True end).
    { intros m' Hm' y. unfold upd. destruct (Nat.eqb_spec y x) as [->|Hne]; [exact I|].
      pose proof (R_st HR y) as Hy. destruct (s_st a y) eqn:Ey; auto.
      rewrite Hm'; auto. rewrite <- (R_queued HR), Ey. discriminate. }
    pose proof (@ins_nodup x v _ (R_nodup HR) Hni) as Hnd'.
    unfold tl_step, tl_insert. rewrite Hx, (R_head HR). cbn [tl_val].
    pose proof (R_seg HR) as Hseg. pose proof (R_nodup HR) as Hnd.
    destruct (s_q a) as [|[h w] q] eqn:Eq; cbn [hd_error keys map fst].
    + simpl. rewrite Nat.eqb_refl. eexists; split; [reflexivity|].
      constructor; simpl; auto.
      apply Hst. reflexivity.
    + pose proof Hseg as Hseg0. destruct Hseg0 as [Hh Hseg0]. rewrite ?orelse_None in Hh. rewrite Hh. cbn [tl_val tl_next].
      cbn [ins] in *. destruct (lt v w) eqn:Elt.
      * unfold t_set_next. rewrite Hx. cbn [tl_val]. rewrite Nat.eqb_refl.
        eexists; split; [reflexivity|]. constructor; cbn [s_q s_st t_head t_mem]; auto.
        -- cbn [seg]. split; [now rewrite upd_same|]. apply (@seg_frame (t_mem c) ((h, w) :: q) None); assumption.
        -- apply Hst. intros y Hy _. now rewrite upd_other.
      * cbn [length] in Hf.
        destruct (@insert_loop_ok q fuel (t_mem c) h w x v) as (m' & -> & Hs' & Ho); auto; [lia|].
        assert (Ehx : Nat.eqb h x = false) by (apply Nat.eqb_neq; intros ->; apply Hni; now left).
        rewrite Ehx. eexists; split; [reflexivity|].
        constructor; cbn [s_q s_st t_head t_mem]; auto.
        apply Hst. exact Ho.
  - (* delete *)
    injection Hs as <- <-. unfold tl_step, tl_delete.
    assert (Hqd : forall y, (match s_st a x with TQueued => upd (s_st a) x TDone | _ => s_st a end) y = TQueued
                 <-> In y (keys (drop_addr x (s_q a)))).
    { intros y. rewrite drop_in, <- (R_queued HR). destruct (s_st a x) eqn:E; unfold upd;
        try destruct (Nat.eqb_spec y x); subst; try (intuition congruence). }
    assert (Hst : forall m', (forall y, ~ In y (keys (s_q a)) -> m' y = t_mem c y) ->
       forall y, match (match s_st a x with TQueued => upd (s_st a) x TDone | _ => s_st a end) y
                 with TFresh w => m' y = Some (mkTLink w None) | _ => True end).
    { intros m' Hm' y. pose proof (R_st HR y) as Hy.
      assert (Hc : (match s_st a x with TQueued => upd (s_st a) x TDone | _ => s_st a end) y = s_st a y \/
                   (match s_st a x with TQueued => upd (s_st a) x TDone | _ => s_st a end) y = TDone).
      { destruct (s_st a x); auto. unfold upd. destruct (Nat.eqb y x); auto. }
      destruct Hc as [->| ->]; [|exact I]. destruct (s_st a y) eqn:Ey; auto.
      rewrite Hm'; auto. rewrite <- (R_queued HR), Ey. discriminate. }
    pose proof (R_seg HR) as Hseg. pose proof (R_nodup HR) as Hnd.
    pose proof (@drop_nodup x _ Hnd) as Hnd2.
    rewrite (R_head HR).
    destruct (s_q a) as [|[h w] q] eqn:Eq; cbn [hd_error keys map fst].
    + eexists; split; [reflexivity|]. constructor; cbn [s_q s_st]; auto.
      * rewrite (R_head HR), Eq. reflexivity.
      * apply Hst. reflexivity.
    + pose proof Hseg as Hseg0. destruct Hseg0 as [Hh Hseg0]. rewrite ?orelse_None in Hh. rewrite Hh. cbn [tl_next].
      destruct (Nat.eqb_spec h x) as [->|Hne].
      * assert (Ed : drop_addr x ((x, w) :: q) = q).
        { unfold drop_addr. simpl. rewrite Nat.eqb_refl. simpl. apply drop_notin. now inversion Hnd. }
        rewrite Ed in *. eexists; split; [reflexivity|]. constructor; cbn [s_q s_st t_head t_mem]; auto.
        apply Hst. reflexivity.
      * cbn [length] in Hf.
        destruct (@delete_loop_ok q fuel (t_mem c) h w x) as (m' & E & Hs' & Ho); auto; [lia|].
        first [rewrite E | unfold keys in E; rewrite E]. eexists; split; [reflexivity|].
        assert (Ed : drop_addr x ((h, w) :: q) = (h, w) :: drop_addr x q).
        { unfold drop_addr. simpl. apply Nat.eqb_neq in Hne. now rewrite Hne. }
        rewrite Ed in *.
        constructor; cbn [s_q s_st t_head t_mem]; auto.
        apply Hst. exact Ho.
  - (* pop_if *)
    unfold tl_step, tl_pop_if. rewrite (R_head HR).
    destruct (s_q a) as [|[h w] q] eqn:Eq; cbn [hd_error keys map fst].
    + injection Hs as <- <-. eauto.
    + pose proof (R_seg HR) as Hseg. rewrite Eq in Hseg. destruct Hseg as [Hh Hseg].
      rewrite ?orelse_None in Hh. rewrite Hh. cbn [tl_val tl_next].
      destruct (p w); injection Hs as <- <-; (eexists; split; [reflexivity|]); [|exact HR].
      pose proof (R_nodup HR) as Hnd. rewrite Eq in Hnd. inversion Hnd; subst.
      constructor; cbn [s_q s_st t_head t_mem]; auto.
      * intros y. unfold upd. destruct (Nat.eqb_spec y h) as [->|]; [split; [discriminate|tauto]|].
        rewrite (R_queued HR), Eq. simpl. intuition congruence.
      * intros y. unfold upd. destruct (Nat.eqb_spec y h) as [->|]; [exact I|apply (R_st HR y)].
  - (* free *)
    assert (Hnq : s_st a x <> TQueued) by (intros E; rewrite E in Hs; discriminate).
    assert (E : (a', r) = (mkSList (s_q a) (upd (s_st a) x TAbsent), TUnit))
      by (destruct (s_st a x); congruence).
    inversion E; subst; clear E Hs. eexists; split; [reflexivity|].
    assert (Hni : ~ In x (keys (s_q a))) by (rewrite <- (R_queued HR); exact Hnq).
    constructor; simpl; try apply HR.
    + apply seg_frame; [exact Hni|apply HR].
    + intros y. unfold upd. destruct (Nat.eqb_spec y x) as [->|]; [split; [discriminate|tauto]|apply HR].
    + intros y. unfold upd. destruct (Nat.eqb_spec y x) as [->|]; [exact I|apply (R_st HR y)].
Qed.

Lemma filter_len {A} (g : A -> bool) l : length (filter g l) <= length l.
Proof. induction l as [|x l IH]; simpl; [lia|]. destruct (g x); simpl; lia. Qed.

Lemma step_length a o a' r : slist_step lt a o = Some (a', r) -> length (s_q a') <= S (length (s_q a)).
Proof.
  destruct o as [x v|x|x|p|x]; simpl; intros Hs.
  - destruct (s_st a x); try discriminate; injection Hs as <- <-; simpl; lia.
  - destruct (s_st a x); try discriminate; injection Hs as <- <-; simpl. rewrite ins_length. lia.
  - injection Hs as <- <-. simpl. unfold drop_addr.
    pose proof (filter_len (fun p => negb (fst p =? x)) (s_q a)). lia.
  - destruct (s_q a) as [|[h w] q] eqn:E; [injection Hs as <- <-; rewrite E; simpl; lia|].
    destruct (p w); injection Hs as <- <-; [simpl; lia|rewrite E; simpl; lia].
  - destruct (s_st a x); try discriminate; injection Hs as <- <-; simpl; lia.
Qed.

Lemma run_refines fuel ops : forall a c a' rs,
  length (s_q a) + length ops <= fuel ->
  R a c -> slist_run lt a ops = Some (a', rs) ->
  exists c', tl_run lt fuel c ops = Some (c', rs) /\ R a' c'.
Proof.
  induction ops as [|o ops IH]; intros a c a' rs Hf HR Hr; cbn [slist_run tl_run length] in *.
  - injection Hr as <- <-. eauto.
  - destruct (slist_step lt a o) as [[a1 r]|] eqn:E1; [|discriminate].
    destruct (slist_run lt a1 ops) as [[a2 rs']|] eqn:E2; [|discriminate].
    injection Hr as <- <-.
    destruct (@step_refines fuel a c o a1 r) as (c1 & -> & HR1); auto; [lia|].
    pose proof (step_length _ _ E1).
    destruct (IH a1 c1 a2 rs') as (c2 & -> & HR2); auto; [lia|]. eauto.
Qed.

Lemma run_from_new ops a' rs fuel :
  slist_run lt slist_new ops = Some (a', rs) -> length ops <= fuel ->
  exists c', tl_run lt fuel tl_new ops = Some (c', rs).
Proof.
  intros H Hf. destruct (@run_refines fuel ops slist_new tl_new a' rs) as (c' & ? & _); auto; [apply R_init|eauto].
Qed.

(** Order and stability of the specification itself. *)
Lemma FOP_cons_iff {A} (Q : A -> A -> Prop) x l :
  ForallOrdPairs Q (x :: l) <-> Forall (Q x) l /\ ForallOrdPairs Q l.
Proof. split; [intros H; now inversion H|intros [? ?]; now constructor]. Qed.

Lemma ins_Forall (Q : nat * V -> Prop) a v q : Q (a, v) -> Forall Q q -> Forall Q (ins lt a v q).
Proof.
  intros Ha. induction q as [|[b w] q IH]; simpl; intros H; [now constructor|].
  inversion H; subst. destruct (lt v w); repeat constructor; auto.
Qed.

Lemma ins_ordered (P : V -> Prop) a v q :
  weak_order_on lt P -> P v -> Forall (fun p => P (snd p)) q ->
  ordered lt q -> ordered lt (ins lt a v q).
Proof.
  intros [Hasym Htr] Pv. unfold ordered. induction q as [|[b w] q IH]; simpl; intros HP Ho.
  - repeat constructor.
  - inversion HP as [|? ? Pw HP']; subst. simpl in Pw.
    destruct (lt v w) eqn:E.
    + apply FOP_cons_iff. split; [|exact Ho]. apply FOP_cons_iff in Ho as [Hw _].
      constructor; [simpl; auto|].
      rewrite Forall_forall in *. intros [c u] Hin. simpl.
      apply Htr with (y := w); auto. 1: apply (HP' _ Hin). apply (Hw _ Hin).
    + apply FOP_cons_iff in Ho as [Hw Ho]. apply FOP_cons_iff. split; [|now apply IH].
      apply ins_Forall; [exact E|exact Hw].
Qed.

(** a new entry goes after every entry that is not later than it (first come first served) and the
    order of the others is unchanged *)
Lemma ins_split (P : V -> Prop) a v q :
  weak_order_on lt P -> P v -> Forall (fun p => P (snd p)) q -> ordered lt q ->
  exists q1 q2, q = q1 ++ q2 /\ ins lt a v q = q1 ++ (a, v) :: q2 /\
    Forall (fun p => lt v (snd p) = false) q1 /\ Forall (fun p => lt v (snd p) = true) q2.
Proof.
  intros [Hasym Htr] Pv. induction q as [|[b w] q IH]; simpl; intros HP Ho.
  - exists [], []. repeat split; constructor.
  - inversion HP as [|? ? Pw HP']; subst. simpl in Pw. apply FOP_cons_iff in Ho as [Hw Ho].
    destruct (lt v w) eqn:E.
    + exists [], ((b, w) :: q). repeat split; [constructor|]. constructor; [exact E|].
      rewrite Forall_forall in *. intros [c u] Hin. simpl.
      destruct (lt v u) eqn:Eu; [reflexivity|].
      (* u <= v < w and w <= u contradiction *)
      exfalso.
      assert (lt v w = false); [|congruence].
      apply Htr with (y := u); auto; [apply (HP' _ Hin)|]. apply (Hw _ Hin).
    + destruct (IH HP' Ho) as (q1 & q2 & -> & -> & H1 & H2).
      exists ((b, w) :: q1), q2. repeat split; auto.
Qed.

Lemma ins_head_iff a v q :
  match ins lt a v q with (b, _) :: _ => b | [] => S a end = a <->
  (q = [] \/ exists b w q', q = (b, w) :: q' /\ (lt v w = true \/ b = a)).
Proof.
  destruct q as [|[b w] q]; simpl; [intuition|].
  destruct (lt v w) eqn:E.
  - split; [intros _; right; exists b, w, q; auto|reflexivity].
  - split.
    + intros ->. right. exists a, w, q. auto.
    + intros [H|(b' & w' & q' & H & [H'|H'])]; congruence.
Qed.

(** every run keeps the list ordered as long as all values inserted are mutually comparable *)
Definition op_ok (P : V -> Prop) (o : tl_op V) : Prop :=
  match o with TNew _ v => P v | _ => True end.

Lemma FOP_filter {A} (Q : A -> A -> Prop) g l : ForallOrdPairs Q l -> ForallOrdPairs Q (filter g l).
Proof.
  induction l as [|x l IH]; simpl; intros H; [constructor|].
  apply FOP_cons_iff in H as [Hx H]. destruct (g x); [|auto].
  apply FOP_cons_iff. split; [|auto]. rewrite Forall_forall in *. intros y Hy.
  apply filter_In in Hy as [Hy _]. auto.
Qed.

Lemma run_ordered (P : V -> Prop) ops : weak_order_on lt P -> Forall (op_ok P) ops ->
  forall a a' rs,
  ordered lt (s_q a) -> Forall (fun p => P (snd p)) (s_q a) ->
  (forall x v, s_st a x = TFresh v -> P v) ->
  slist_run lt a ops = Some (a', rs) -> ordered lt (s_q a') /\ Forall (fun p => P (snd p)) (s_q a').
Proof.
  intros HW. induction ops as [|o ops IH]; intros Hops a a' rs Ho HP Hfr Hr; cbn [slist_run] in Hr.
  - injection Hr as <- <-. auto.
  - destruct (slist_step lt a o) as [[a1 r]|] eqn:E1; [|discriminate].
    destruct (slist_run lt a1 ops) as [[a2 rs']|] eqn:E2; [|discriminate].
    injection Hr as <- <-. inversion Hops as [|? ? Ho1 Hops']; subst.
    assert (Hk : ordered lt (s_q a1) /\ Forall (fun p => P (snd p)) (s_q a1) /\
                 (forall x v, s_st a1 x = TFresh v -> P v)).
    { destruct o as [x v|x|x|p|x]; simpl in E1, Ho1.
      - destruct (s_st a x); try discriminate; injection E1 as <- <-; simpl; (split; [exact Ho|split; [exact HP|]]);
          intros y u; unfold upd; destruct (Nat.eqb y x); [congruence|apply Hfr| |apply Hfr| |apply Hfr]; congruence.
      - destruct (s_st a x) eqn:Ex; try discriminate; injection E1 as <- <-; simpl.
        split; [|split].
        + eapply ins_ordered; eauto.
        + apply ins_Forall; [simpl; eauto|exact HP].
        + intros y u; unfold upd; destruct (Nat.eqb y x); [congruence|apply Hfr].
      - injection E1 as <- <-; simpl. split; [|split].
        + apply FOP_filter. exact Ho.
        + rewrite Forall_forall in *. intros p Hp. apply filter_In in Hp as [Hp _]. auto.
        + intros y u. destruct (s_st a x); try apply Hfr. unfold upd. destruct (Nat.eqb y x); [congruence|apply Hfr].
      - destruct (s_q a) as [|[h w] q] eqn:Eq.
        + injection E1 as <- <-. rewrite Eq. auto.
        + destruct (p w); injection E1 as <- <-; simpl; [|rewrite Eq; auto].
          apply FOP_cons_iff in Ho as [_ Ho]. inversion HP; subst. split; [exact Ho|split; [assumption|]].
          intros y u; unfold upd; destruct (Nat.eqb y h); [congruence|apply Hfr].
      - destruct (s_st a x); try discriminate; injection E1 as <- <-; simpl; (split; [exact Ho|split; [exact HP|]]);
          intros y u; unfold upd; destruct (Nat.eqb y x); try congruence; apply Hfr. }
    destruct Hk as (K1 & K2 & K3). eapply IH; eauto.
Qed.

End Proofs.

Lemma run_ordered_from_new {V} (lt : V -> V -> bool) (P : V -> Prop) ops a rs :
  weak_order_on lt P -> (forall x v, In (TNew x v) ops -> P v) ->
  slist_run lt slist_new ops = Some (a, rs) -> ordered lt (s_q a).
Proof.
  intros HW HP H.
  eapply (run_ordered (P := P) (ops := ops) HW) with (a := slist_new); [|constructor|constructor| |exact H].
  - rewrite Forall_forall. intros o Ho. destruct o; simpl; auto. eapply HP; eauto.
  - simpl. discriminate.
Qed.

From Verif Require Import TicksModel TicksProofs.
Open Scope Z_scope.
Lemma ticks_weak_order w lo : 1 <= w ->
  weak_order_on (fun a b => tick_lt w (a mod 2 ^ w) (b mod 2 ^ w)) (fun T => lo <= T < lo + 2 ^ (w - 1)).
Proof.
  intros Hw. split.
  - intros x y Hx Hy. rewrite !tick_lt_window by lia. lia.
  - intros x y z Hx Hy Hz. rewrite !tick_lt_window by lia. lia.
Qed.
