From Verif Require Import Base LTS ArbiterModel ArbiterSpec.
From Coq Require Import Sorted.
Set Implicit Arguments.

Lemma waits_app l1 l2 : waits (l1 ++ l2) = waits l1 ++ waits l2.
Proof. induction l1 as [|[] l1 IH]; simpl; congruence. Qed.
Lemma granted_app l1 l2 : granted (l1 ++ l2) = granted l1 ++ granted l2.
Proof. induction l1 as [|[| |j [n|]| | |] l1 IH]; simpl; congruence. Qed.

Lemma remove_In (l : list nat) x y : In y (remove Nat.eq_dec x l) <-> In y l /\ y <> x.
Proof.
  split; [intros H; now apply in_remove in H|]. intros [H Hn]. now apply in_in_remove.
Qed.
Lemma remove_NoDup (l : list nat) x : NoDup l -> NoDup (remove Nat.eq_dec x l).
Proof.
  induction 1 as [|a l Hn Hd IH]; simpl; [constructor|]. destruct (Nat.eq_dec x a); [exact IH|].
  constructor; [|exact IH]. rewrite remove_In. tauto.
Qed.
Lemma remove_Sorted (R : nat -> nat -> Prop) (l : list nat) x : StronglySorted R l -> StronglySorted R (remove Nat.eq_dec x l).
Proof.
  induction 1 as [|a l Hs IH Hf]; simpl; [constructor|]. destruct (Nat.eq_dec x a); [exact IH|].
  constructor; [exact IH|]. rewrite Forall_forall in *. intros y Hy. apply Hf. now apply remove_In in Hy.
Qed.
Lemma Sorted_snoc {A} (R : A -> A -> Prop) l x : StronglySorted R l -> (forall y, In y l -> R y x) -> StronglySorted R (l ++ [x]).
Proof.
  induction 1 as [|a l Hs IH Hf]; simpl; intros H; [repeat constructor|].
  constructor; [apply IH; auto|]. rewrite Forall_forall in *. intros y Hy. apply in_app_iff in Hy as [Hy|[<-|[]]]; auto.
Qed.
Lemma Sorted_ext {A} (R R' : A -> A -> Prop) l : (forall a b, In a l -> In b l -> R a b -> R' a b) -> StronglySorted R l -> StronglySorted R' l.
Proof.
  intros H Hs. induction Hs as [|a l Hs IH Hf]; constructor.
  - apply IH. intros; apply H; simpl; auto.
  - rewrite Forall_forall in *. intros b Hb. apply H; simpl; auto.
Qed.

Section Proofs.
Context {V : Type}.
Implicit Types (s : @arb V) (j k : nat).

(** Ticket of a client, 0 if none. *)
Definition tk s j : nat := match a_seq (cl s j) with Some n => n | None => 0 end.

Record AInv s : Prop := {
  I_nd : NoDup (awq s);
  I_in : forall j, In j (awq s) <-> a_link (cl s j) = KQueued;
  I_q : forall j, a_link (cl s j) = KQueued -> a_pc (cl s j) = AWait;
  I_p : forall j, a_link (cl s j) = KPopped -> (a_pc (cl s j) = AWait \/ a_pc (cl s j) = AReady) /\ a_woken (cl s j) = true;
  I_free : taken s = false -> awq s = [] /\ forall j, ~ has_it s j;
  I_one : forall i j, has_it s i -> has_it s j -> i = j;
  I_none : forall j, a_link (cl s j) = KNone -> a_seq (cl s j) = None;
  I_some : forall j, a_link (cl s j) <> KNone -> exists n, a_seq (cl s j) = Some n /\ n < aseq s;
  I_sorted : StronglySorted (fun a b => tk s a < tk s b) (awq s);
  I_lead : forall j k, a_link (cl s j) = KPopped -> In k (awq s) -> tk s j < tk s k;
  I_past : forall n j, In n (granted (alog s)) -> a_link (cl s j) <> KNone -> n < tk s j;
  I_gs : StronglySorted lt (granted (alog s));
  I_gb : forall n, In n (granted (alog s)) -> n < aseq s;
  I_ws : waits (alog s) = seq 0 (aseq s);
  I_gh : exists o, guard_history (alog s) o /\ forall j, holds s j <-> o = Some j
}.

Lemma AInv_new v : AInv (arb_new v).
Proof.
  constructor; simpl; try (intros; congruence); try constructor; try (intros; contradiction).
  - discriminate.
  - reflexivity.
  - intros j [E|[E|[E _]]]; discriminate.
  - intros i j [E|[E|[E _]]]; discriminate.
  - exists None. split; [constructor|]. intros j. split; discriminate.
Qed.


Ltac ucase := unfold upd in *; repeat match goal with
  | |- context [Nat.eqb ?x ?y] => destruct (Nat.eqb_spec x y); try subst
  | H : context [Nat.eqb ?x ?y] |- _ => destruct (Nat.eqb_spec x y); try subst
  end; simpl in *.
Ltac fin := try solve [eauto 3 | congruence | intuition (try congruence; eauto 3)].

(** A client without link and without the arbiter moves between idle and waiting. *)
Lemma step_wait s j c : AInv s -> a_pc (cl s j) = AIdle -> a_pc c = AWait -> a_link c = KNone -> a_seq c = None ->
  AInv (set_cl s j c).
Proof.
  intros H Hp Hp' Hl Hq. destruct H as [nd iin iq ip ifree ione inone isome isrt ilead ipast igs igb iws igh].
  assert (Hk : a_link (cl s j) = KNone).
  { destruct (a_link (cl s j)) eqn:E; [reflexivity|apply iq in E; congruence|apply ip in E as [[E|E] _]; congruence]. }
  constructor; unfold set_cl, has_it, holds, tk in *; simpl; auto.
  - intros k. rewrite iin. ucase; fin.
  - intros k. ucase; fin.
  - intros k. ucase; fin.
  - intros Hf. apply ifree in Hf as [Hf Hn]. split; [exact Hf|]. intros k Hc. ucase; [fin|apply (Hn k); fin].
  - intros a b Ha Hb. ucase; fin.
  - intros k. ucase; fin.
  - intros k. ucase; fin.
  - eapply Sorted_ext; [|exact isrt]. simpl. intros a b Ha Hb. apply iin in Ha, Hb. ucase; congruence.
  - intros a b Ha Hb. pose proof (proj1 (iin b) Hb). ucase; fin.
  - intros n k Hn Hc. ucase; fin.
  - destruct igh as (o & Ho & Hh). exists o. split; [exact Ho|]. intros k. specialize (Hh k). ucase; fin.

Qed.

Ltac open H := destruct H as [nd iin iq ip ifree ione inone isome isrt ilead ipast igs igb iws igh].

Lemma free_own s j : AInv s -> queue_empty s = true -> taken s = false ->
  awq s = [] /\ a_link (cl s j) = KNone /\ (forall k, ~ has_it s k).
Proof.
  intros H _ Ht. pose proof (I_free H Ht) as [Hq Hn]. split; [exact Hq|]. split; [|exact Hn].
  destruct (a_link (cl s j)) eqn:E; [reflexivity| |].
  - apply (I_in H) in E. rewrite Hq in E. destruct E.
  - exfalso. apply (Hn j). destruct (I_p H _ E) as [[?|?] _]; [right; right; auto|right; left; auto].
Qed.

(** Taking a free arbiter: the future becomes ready. *)
Lemma step_take s j : AInv s -> queue_empty s = true -> taken s = false -> a_pc (cl s j) = AWait ->
  AInv (set_apc (set_taken s true) j AReady).
Proof.
  intros H Hq Ht Hp. destruct (free_own j H Hq Ht) as (Hq0 & Hk & Hno). open H.
  constructor; unfold set_apc, set_cl, set_taken, has_it, holds, tk in *; simpl; auto.
  - intros k. rewrite iin. ucase; fin.
  - intros k. ucase; fin.
  - intros k. ucase; fin.
  - discriminate.
  - intros a b Ha Hb. ucase; try congruence; exfalso; eapply Hno; eauto.
  - intros k. ucase; fin.
  - intros k. ucase; fin.
  - rewrite Hq0. constructor.
  - rewrite Hq0. simpl. tauto.
  - intros n k Hn Hc. ucase; fin. 
  - destruct igh as (o & Ho & Hh). exists o. split; [exact Ho|]. intros k. specialize (Hh k). ucase; [|exact Hh].
    rewrite <- Hh. split; congruence.
Qed.

(** A popped future is polled: it becomes ready. *)
Lemma step_popped s j : AInv s -> a_link (cl s j) = KPopped -> a_pc (cl s j) = AWait -> AInv (set_apc s j AReady).
Proof.
  intros H Hk Hp. open H.
  assert (Hj : has_it s j) by (right; right; auto).
  constructor; unfold set_apc, set_cl, has_it, holds, tk in *; simpl; auto.
  - intros k. rewrite iin. ucase; fin.
  - intros k. ucase; fin.
  - intros k. specialize (ip k). ucase; [|exact ip]. intros E. apply ip in E. tauto.
  - intros Hf. exfalso. apply ifree in Hf as [_ Hf]. apply (Hf j). tauto.
  - intros a b Ha Hb.
    assert (Ha' : a = j) by (clear Hb; ucase; [reflexivity|apply ione; tauto]).
    assert (Hb' : b = j) by (clear Ha; ucase; [reflexivity|apply ione; tauto]). congruence.
  - intros k. ucase; fin.
  - intros k. ucase; fin.
  - eapply Sorted_ext; [|exact isrt]. simpl. intros a b Ha Hb. ucase; auto.
  - intros a b Ha Hb. specialize (ilead a b). ucase; auto.
  - intros n k Hn Hc. specialize (ipast n k Hn). ucase; auto.
  - destruct igh as (o & Ho & Hh). exists o. split; [exact Ho|]. intros k. specialize (Hh k). ucase; [|exact Hh].
    rewrite <- Hh. split; congruence.
Qed.

(** A new waiter joins the queue. *)
Lemma step_push s j w : AInv s -> (queue_empty s && negb (taken s))%bool = false -> a_link (cl s j) = KNone -> a_pc (cl s j) = AWait ->
  AInv (aemit (mkArb (awq s ++ [j]) (taken s) (inner s) (upd (cl s) j (mkA AWait KQueued w false (Some (aseq s)))) (S (aseq s)) (alog s)) (GWait j (aseq s))).
Proof.
  intros H Hne Hk Hp. open H.
  assert (Ht : taken s = true).
  { destruct (taken s) eqn:E; [reflexivity|]. destruct (ifree eq_refl) as [Hq _]. unfold queue_empty in Hne. rewrite Hq in Hne. discriminate. }
  assert (Hj : ~ In j (awq s)) by (rewrite iin; congruence).
  constructor; unfold aemit, has_it, holds, tk in *; simpl.
  - apply NoDup_snoc; auto.
  - intros k. rewrite in_app_iff, iin. simpl. ucase; fin.
  - intros k. ucase; fin.
  - intros k. ucase; fin.
  - congruence.
  - intros a b Ha Hb.
    assert (Ha' : a <> j) by (intros ->; rewrite upd_same in Ha; simpl in Ha; intuition congruence).
    assert (Hb' : b <> j) by (intros ->; rewrite upd_same in Hb; simpl in Hb; intuition congruence).
    rewrite !upd_other in * by assumption. auto.
  - intros k. ucase; fin.
  - intros k. specialize (isome k). ucase; [eauto|]. intros E. destruct (isome E) as (m & -> & Hm). eauto.
  - apply Sorted_snoc.
    + eapply Sorted_ext; [|exact isrt]. simpl. intros a b Ha Hb.
      rewrite !upd_other by (intros ->; contradiction). auto.
    + intros a Ha. rewrite upd_same, upd_other by (intros ->; contradiction). simpl.
      apply iin in Ha. destruct (isome a) as (m & -> & Hm); [congruence|]. exact Hm.
  - intros a b Ha Hb. apply in_app_iff in Hb as [Hb|[<-|[]]].
    + assert (b <> j) by (intros ->; contradiction). specialize (ilead a b). ucase; try congruence. auto.
    + rewrite upd_same. simpl. assert (Ha' : a <> j) by (intros ->; rewrite upd_same in Ha; discriminate).
      rewrite upd_other in * by assumption. destruct (isome a) as (m & -> & Hm); [congruence|]. exact Hm.
  - intros n k Hn Hc. rewrite granted_app in Hn. simpl in Hn. rewrite app_nil_r in Hn. specialize (ipast n k Hn). ucase; auto.
  - rewrite granted_app. simpl. now rewrite app_nil_r.
  - intros n Hn. rewrite granted_app in Hn. simpl in Hn. rewrite app_nil_r in Hn. specialize (igb n Hn). lia.
  - rewrite waits_app, iws. simpl. now rewrite <- seq_S.
  - destruct igh as (o & Ho & Hh). exists o. split; [now constructor|]. intros k. specialize (Hh k). ucase; [|exact Hh].
    rewrite <- Hh. split; congruence.
Qed.

(** The ready future returns its guard. *)
Lemma step_finish s j : AInv s -> a_pc (cl s j) = AReady ->
  AInv (aemit (set_cl s j (mkA AHold KNone 0 false None)) (GGrant j (a_seq (cl s j)))).
Proof.
  intros H Hp. pose proof H as H0. open H.
  assert (Hj : has_it s j) by (right; left; auto).
  assert (Hq : a_link (cl s j) <> KQueued) by (intros E; apply iq in E; congruence).
  assert (Hgr : granted (alog s ++ [GGrant j (a_seq (cl s j))]) =
                granted (alog s) ++ match a_seq (cl s j) with Some n => [n] | None => [] end).
  { rewrite granted_app. simpl. destruct (a_seq (cl s j)); reflexivity. }
  constructor; unfold aemit, set_cl, has_it, holds, tk in *; simpl.
  - exact nd.
  - intros k. rewrite iin. ucase; fin.
  - intros k. ucase; fin.
  - intros k. ucase; fin.
  - intros Hf. exfalso. apply ifree in Hf as [_ Hf]. apply (Hf j). tauto.
  - intros a b Ha Hb.
    assert (Ha' : a = j) by (clear Hb; ucase; [reflexivity|apply ione; tauto]).
    assert (Hb' : b = j) by (clear Ha; ucase; [reflexivity|apply ione; tauto]). congruence.
  - intros k. ucase; fin.
  - intros k. ucase; fin.
  - eapply Sorted_ext; [|exact isrt]. simpl. intros a b Ha Hb. apply iin in Ha, Hb. rewrite !upd_other by congruence. auto.
  - intros a b Ha Hb. specialize (ilead a b). pose proof (proj1 (iin b) Hb). ucase; try congruence. auto.
  - intros n k Hn Hc. rewrite Hgr in Hn. assert (Hkj : k <> j) by (intros ->; rewrite upd_same in Hc; simpl in Hc; congruence).
    rewrite upd_other in * by assumption. apply in_app_iff in Hn as [Hn|Hn]; [auto|].
    destruct (a_seq (cl s j)) as [m|] eqn:E; [destruct Hn as [<-|[]]|destruct Hn].
    destruct (a_link (cl s j)) eqn:El; [rewrite (inone j El) in E; discriminate|congruence|].
    assert (Hkq : a_link (cl s k) = KQueued).
    { destruct (a_link (cl s k)) eqn:Ek; [congruence|reflexivity|]. exfalso. apply Hkj. apply ione; [|tauto].
      destruct (ip k Ek) as [[?|?] _]; tauto. }
    specialize (ilead j k El (proj2 (iin k) Hkq)). now rewrite E in ilead.
  - rewrite Hgr. destruct (a_seq (cl s j)) as [m|] eqn:E; [|now rewrite app_nil_r].
    apply Sorted_snoc; [exact igs|]. intros y Hy. specialize (ipast y j Hy). rewrite E in ipast. apply ipast.
    intros El. rewrite (inone j El) in E. discriminate.
  - intros n Hn. rewrite Hgr in Hn. apply in_app_iff in Hn as [Hn|Hn]; [auto|].
    destruct (a_seq (cl s j)) as [m|] eqn:E; [destruct Hn as [<-|[]]|destruct Hn].
    destruct (isome j) as (m' & Em & Hm); [intros El; rewrite (inone j El) in E; discriminate|]. congruence.
  - rewrite waits_app. simpl. now rewrite app_nil_r.
  - destruct igh as (o & Ho & Hh).
    assert (o = None).
    { destruct o as [i|]; [|reflexivity]. assert (holds s i) by (now apply Hh). unfold holds in *.
      assert (i = j) by (apply ione; tauto). subst. congruence. }
    subst o. exists (Some j). split; [now constructor|]. intros k. specialize (Hh k). ucase; [tauto|]. rewrite Hh. split; congruence.
Qed.

(** A pending access future is dropped. *)
Lemma step_cancel s j : AInv s -> a_pc (cl s j) = AWait ->
  AInv (aemit (set_cl (remove_link s j) j a0) (GCancel j)).
Proof.
  intros H Hp. open H.
  assert (HQ : forall k, In k (awq (remove_link s j)) <-> In k (awq s) /\ k <> j).
  { intros k. unfold remove_link. destruct (a_link (cl s j)) eqn:E; simpl; [|apply remove_In|];
      (split; [|tauto]; intros Hk; split; [exact Hk|intros ->; apply iin in Hk; congruence]). }
  assert (Hnd : NoDup (awq (remove_link s j))).
  { unfold remove_link. destruct (a_link (cl s j)); simpl; auto. now apply remove_NoDup. }
  assert (Hs : StronglySorted (fun a b => tk s a < tk s b) (awq (remove_link s j))).
  { unfold remove_link. destruct (a_link (cl s j)); simpl; auto. now apply remove_Sorted. }
  assert (E1 : taken (remove_link s j) = taken s /\ inner (remove_link s j) = inner s /\ cl (remove_link s j) = cl s /\ aseq (remove_link s j) = aseq s /\ alog (remove_link s j) = alog s).
  { unfold remove_link. destruct (a_link (cl s j)); repeat split. }
  destruct E1 as (E1 & E2 & E3 & E4 & E5).
  assert (Hgr : granted (alog s ++ [GCancel j]) = granted (alog s)) by (rewrite granted_app; simpl; now rewrite app_nil_r).
  constructor; unfold aemit, set_cl, has_it, holds, tk in *; simpl; rewrite ?E1, ?E2, ?E3, ?E4, ?E5, ?Hgr; auto.
  - intros k. rewrite HQ, iin. ucase; fin.
  - intros k. ucase; fin.
  - intros k. ucase; fin.
  - intros Hf. apply ifree in Hf as [Hf Hn]. split.
    + destruct (awq (remove_link s j)) as [|x q] eqn:E; [reflexivity|]. exfalso. destruct (HQ x) as [Hx _].
      destruct Hx as [Hx _]; [now left|]. rewrite Hf in Hx. destruct Hx.
    + intros k Hc. ucase; [fin|eapply Hn; eauto].
  - intros a b Ha Hb. ucase; fin.
  - intros k. ucase; fin.
  - intros k. ucase; fin.
  - eapply Sorted_ext; [|exact Hs]. simpl. intros a b Ha Hb. apply HQ in Ha as [_ Ha], Hb as [_ Hb]. now rewrite !upd_other.
  - intros a b Ha Hb. apply HQ in Hb as [Hb Hne]. specialize (ilead a b). ucase; try congruence. auto.
  - intros n k Hn Hc. specialize (ipast n k Hn). ucase; fin.
  - rewrite waits_app. simpl. now rewrite app_nil_r.
  - destruct igh as (o & Ho & Hh). exists o. split; [now constructor|]. intros k. specialize (Hh k). ucase; [|exact Hh].
    rewrite <- Hh. split; congruence.
Qed.

(** try_access succeeds. *)
Lemma step_try s j : AInv s -> queue_empty s = true -> taken s = false -> a_pc (cl s j) = AIdle ->
  AInv (aemit (set_cl (set_taken s true) j (mkA AHold KNone 0 false None)) (GGrant j None)).
Proof.
  intros H Hq Ht Hp. destruct (free_own j H Hq Ht) as (Hq0 & Hk & Hno). open H.
  assert (Hgr : granted (alog s ++ [GGrant j None]) = granted (alog s)) by (rewrite granted_app; simpl; now rewrite app_nil_r).
  constructor; unfold aemit, set_cl, set_taken, has_it, holds, tk in *; simpl; rewrite ?Hgr; auto.
  - intros k. rewrite iin. ucase; fin.
  - intros k. ucase; fin.
  - intros k. ucase; fin.
  - discriminate.
  - intros a b Ha Hb. ucase; try congruence; exfalso; eapply Hno; eauto.
  - intros k. ucase; fin.
  - intros k. ucase; fin.
  - rewrite Hq0. constructor.
  - rewrite Hq0. simpl. tauto.
  - intros n k Hn Hc. ucase; fin.
  - rewrite waits_app. simpl. now rewrite app_nil_r.
  - destruct igh as (o & Ho & Hh).
    assert (o = None) by (destruct o as [i|]; [|reflexivity]; exfalso; apply (Hno i); left; now apply Hh).
    subst o. exists (Some j). split; [now constructor|]. intros k. specialize (Hh k). ucase; [tauto|]. rewrite Hh. split; congruence.
Qed.

(** Events that concern neither guards nor tickets. *)
Lemma step_note s j : AInv s -> AInv (aemit s (GNone j)).
Proof.
  intros H. open H.
  assert (Hgr : granted (alog s ++ [GNone j]) = granted (alog s)) by (rewrite granted_app; simpl; now rewrite app_nil_r).
  constructor; unfold aemit, has_it, holds, tk in *; simpl; rewrite ?Hgr; auto.
  - rewrite waits_app. simpl. now rewrite app_nil_r.
  - destruct igh as (o & Ho & Hh). exists o. split; [now constructor|exact Hh].
Qed.

(** The guard is dropped. *)
Lemma step_release s j : AInv s -> a_pc (cl s j) = AHold -> AInv (do_release s j).
Proof.
  intros H Hp. open H.
  assert (Hj : has_it s j) by (left; auto).
  assert (Ht : taken s = true) by (destruct (taken s) eqn:E; [reflexivity|]; exfalso; eapply (proj2 (ifree eq_refl)); eauto).
  assert (Hk : a_link (cl s j) = KNone).
  { destruct (a_link (cl s j)) eqn:E; [reflexivity|apply iq in E; congruence|apply ip in E as [[E|E] _]; congruence]. }
  assert (Hgh : guard_history (alog s ++ [GRelease j]) None /\ forall k, k <> j -> a_pc (cl s k) <> AHold).
  { destruct igh as (o & Ho & Hh). assert (o = Some j) by (now apply Hh). subst o. split; [now constructor|].
    intros k Hkj Hc. apply Hh in Hc. congruence. }
  destruct Hgh as [Hgh Hnh].
  unfold do_release. simpl.
  destruct (awq s) as [|i q] eqn:Eq.
  - assert (Hgr : granted (alog s ++ [GRelease j]) = granted (alog s)) by (rewrite granted_app; simpl; now rewrite app_nil_r).
    constructor; unfold aemit, set_cl, set_taken, has_it, holds, tk in *; simpl; rewrite ?Hgr, ?Eq; auto.
    + intros k. rewrite iin. ucase; fin.
    + intros k. ucase; fin.
    + intros k. ucase; fin.
    + intros _. split; [reflexivity|]. intros k Hc. ucase; [fin|]. apply n. now apply ione.
    + intros a b Ha Hb. ucase; fin.
    + intros k. ucase; fin.
    + intros k. ucase; fin.
    + constructor.
    + simpl. tauto.
    + intros n k Hn Hc. specialize (ipast n k Hn). ucase; fin.
    + rewrite waits_app. simpl. now rewrite app_nil_r.
    + exists None. split; [exact Hgh|]. intros k. ucase; [split; discriminate|]. split; [|discriminate]. intros E. exfalso. eapply Hnh; eauto.
  - assert (Hi : a_link (cl s i) = KQueued) by (apply iin; now left).
    assert (Hij : i <> j) by (intros ->; congruence).
    assert (Hiw : a_pc (cl s i) = AWait) by auto.
    rewrite (upd_other (cl s) a0 Hij).
    assert (Hgr : granted ((alog s ++ [GRelease j]) ++ [GWake i (a_waker (cl s i))]) = granted (alog s))
      by (rewrite !granted_app; simpl; now rewrite !app_nil_r).
    inversion nd as [|? ? Hni Hnd']; subst. inversion isrt as [|? ? Hs Hf]; subst.
    constructor; unfold aemit, set_cl, set_awq, has_it, holds, tk in *; simpl; rewrite ?Hgr; simpl; auto.
    + intros k. specialize (iin k). destruct (Nat.eq_dec k i) as [->|Hki]; [rewrite upd_same; simpl; split; [contradiction|discriminate]|].
      rewrite upd_other by assumption. destruct (Nat.eq_dec k j) as [->|Hkj].
      * rewrite upd_same. simpl. split; [|discriminate]. intros Hin. exfalso. assert (a_link (cl s j) = KQueued) by (apply iin; now right). congruence.
      * rewrite upd_other by assumption. rewrite <- iin. split; [now right|]. intros [?|?]; [congruence|assumption].
    + intros k. ucase; fin.
    + intros k. specialize (ip k). ucase; fin.
    + congruence.
    + assert (HI : forall a, (a_pc (upd (upd (cl s) j a0) i (mkA (a_pc (cl s i)) KPopped (a_waker (cl s i)) true (a_seq (cl s i))) a) = AHold \/
         a_pc (upd (upd (cl s) j a0) i (mkA (a_pc (cl s i)) KPopped (a_waker (cl s i)) true (a_seq (cl s i))) a) = AReady \/
         a_pc (upd (upd (cl s) j a0) i (mkA (a_pc (cl s i)) KPopped (a_waker (cl s i)) true (a_seq (cl s i))) a) = AWait /\
         a_link (upd (upd (cl s) j a0) i (mkA (a_pc (cl s i)) KPopped (a_waker (cl s i)) true (a_seq (cl s i))) a) = KPopped) -> a = i).
      { intros a Ha. destruct (Nat.eq_dec a i) as [E|E]; [exact E|]. rewrite upd_other in Ha by assumption. exfalso.
        destruct (Nat.eq_dec a j) as [->|E2]; [rewrite upd_same in Ha; simpl in Ha; intuition congruence|].
        rewrite upd_other in Ha by assumption. apply E2. apply ione; tauto. }
      intros a b Ha Hb. rewrite (HI a Ha), (HI b Hb). reflexivity.
    + intros k. specialize (inone k). ucase; fin.
    + intros k. specialize (isome k). ucase; fin.
    + eapply Sorted_ext; [|exact Hs]. simpl. intros a b Ha Hb.
      assert (a <> i /\ a <> j) as [? ?] by (split; intros ->; [contradiction|]; assert (In j (i :: q)) by (now right); rewrite iin in *; congruence).
      assert (b <> i /\ b <> j) as [? ?] by (split; intros ->; [contradiction|]; assert (In j (i :: q)) by (now right); rewrite iin in *; congruence).
      now rewrite !upd_other.
    + intros a b Ha Hb. rewrite Forall_forall in Hf.
      assert (b <> i /\ b <> j) as [? ?] by (split; intros ->; [contradiction|]; assert (In j (i :: q)) by (now right); rewrite iin in *; congruence).
      specialize (ilead a b). specialize (Hf b Hb). ucase; try congruence; auto.
    + intros n k Hn Hc. specialize (ipast n k Hn). ucase; fin.
    + rewrite !waits_app. simpl. now rewrite !app_nil_r.
    + exists None. split; [now constructor|]. intros k. ucase; try (split; congruence). split; [|discriminate]. intros E. exfalso. eapply Hnh; eauto.
Qed.

Lemma AInv_step s l s' : AInv s -> astep s l = Some s' -> AInv s'.
Proof.
  intros H Hs. destruct l as [j|j w|j|j|j|j|j v]; simpl in Hs; destruct (a_pc (cl s j)) eqn:Ep; try discriminate; injection Hs as <-.
  - apply step_wait; auto.
  - unfold do_poll. destruct (queue_empty s && negb (taken s))%bool eqn:Ec.
    + apply andb_true_iff in Ec as [E1 E2]. apply step_take; auto. now apply negb_true_iff.
    + destruct (a_link (cl s j)) eqn:El; [apply step_push; auto|exact H|apply step_popped; auto].
  - assert (remove_link s j = s) as ->.
    { unfold remove_link. destruct (a_link (cl s j)) eqn:E; auto. apply (I_q H) in E. congruence. }
    apply step_finish; auto.
  - apply step_cancel; auto.
  - unfold do_try. destruct (queue_empty s && negb (taken s))%bool eqn:Ec; [|now apply step_note].
    apply andb_true_iff in Ec as [E1 E2]. apply step_try; auto. now apply negb_true_iff.
  - apply step_release; auto.
  - destruct H. constructor; auto.
Qed.

Lemma AInv_reach v s : areach v s -> AInv s.
Proof. intros H. eapply reach_inv; [apply AInv_new|apply AInv_step|exact H]. Qed.

Lemma has_it_dec s j : {has_it s j} + {~ has_it s j}.
Proof.
  unfold has_it, holds. destruct (a_pc (cl s j)) eqn:E; [right|destruct (a_link (cl s j)); [right|right|left]|left|left]; intuition congruence.
Qed.

(** Who obtains the arbiter in a step: the head of the queue, or, if nobody waits and it is free, anybody. *)
Lemma acquire s l s' k : AInv s -> astep s l = Some s' -> ~ has_it s k -> has_it s' k ->
  (awq s = [] /\ taken s = false) \/ (exists q, awq s = k :: q /\ a_woken (cl s' k) = true).
Proof.
  intros H Hs Hn Hk. destruct l as [j|j w|j|j|j|j|j v]; simpl in Hs; destruct (a_pc (cl s j)) eqn:Ep; try discriminate; injection Hs as <-.
  - exfalso. apply Hn. unfold has_it, holds, set_cl in *. simpl in Hk. unfold upd in Hk. destruct (Nat.eqb_spec k j); [subst; simpl in Hk; intuition congruence|exact Hk].
  - unfold do_poll in Hk. destruct (queue_empty s && negb (taken s))%bool eqn:Ec.
    + left. apply andb_true_iff in Ec as [E1 E2]. apply negb_true_iff in E2. split; [|exact E2]. now apply (I_free H).
    + exfalso. apply Hn. destruct (a_link (cl s j)) eqn:El; [| exact Hk |].
      * unfold has_it, holds in *. simpl in Hk. unfold upd in Hk. destruct (Nat.eqb_spec k j); [subst; simpl in Hk; intuition congruence|exact Hk].
      * unfold has_it, holds in *. simpl in Hk. unfold upd in Hk. destruct (Nat.eqb_spec k j); [subst; simpl in Hk; tauto|exact Hk].
  - exfalso. apply Hn. assert (E : cl (remove_link s j) = cl s) by (unfold remove_link; destruct (a_link (cl s j)); reflexivity).
    unfold has_it, holds in *. simpl in Hk. rewrite E in Hk. unfold upd in Hk. destruct (Nat.eqb_spec k j); [subst; simpl in Hk; tauto|exact Hk].
  - exfalso. apply Hn. assert (E : cl (remove_link s j) = cl s) by (unfold remove_link; destruct (a_link (cl s j)); reflexivity).
    unfold has_it, holds in *. simpl in Hk. rewrite E in Hk. unfold upd in Hk. destruct (Nat.eqb_spec k j); [subst; simpl in Hk; intuition congruence|exact Hk].
  - unfold do_try in Hk. destruct (queue_empty s && negb (taken s))%bool eqn:Ec.
    + left. apply andb_true_iff in Ec as [E1 E2]. apply negb_true_iff in E2. split; [|exact E2]. now apply (I_free H).
    + exfalso. apply Hn. exact Hk.
  - unfold do_release in *. simpl in *. destruct (awq s) as [|i q] eqn:Eq.
    + exfalso. apply Hn. unfold has_it, holds in *. simpl in Hk. unfold upd in Hk. destruct (Nat.eqb_spec k j); [subst; simpl in Hk; intuition congruence|exact Hk].
    + unfold has_it, holds in *. simpl in *. unfold upd in Hk |- *. destruct (Nat.eqb_spec k i); [subst|].
      * right. eauto.
      * exfalso. apply Hn. destruct (Nat.eqb_spec k j); [subst; simpl in Hk; intuition congruence|exact Hk].
  - exfalso. apply Hn. exact Hk.
Qed.

(** If nobody has the arbiter and it is marked taken, nobody ever gets it. *)
Definition stuck s : Prop := taken s = true /\ forall j, ~ has_it s j.

Lemma stuck_step s l s' : AInv s -> stuck s -> astep s l = Some s' -> stuck s' /\
  filter (fun e => match e with GGrant _ _ => true | _ => false end) (alog s') = filter (fun e => match e with GGrant _ _ => true | _ => false end) (alog s).
Proof.
  intros H [Ht Hn] Hs. assert (HE : (queue_empty s && negb (taken s))%bool = false) by (rewrite Ht; apply andb_false_r).
  destruct l as [j|j w|j|j|j|j|j v]; simpl in Hs; destruct (a_pc (cl s j)) eqn:Ep; try discriminate; injection Hs as <-.
  - split; [|reflexivity]. split; [exact Ht|]. intros k Hk. apply (Hn k). unfold has_it, holds, set_cl in *. simpl in Hk. unfold upd in Hk.
    destruct (Nat.eqb_spec k j); [subst; simpl in Hk; intuition congruence|exact Hk].
  - unfold do_poll in *. rewrite HE in *. destruct (a_link (cl s j)) eqn:El.
    + split; [|simpl; rewrite filter_app; simpl; now rewrite app_nil_r]. split; [exact Ht|]. intros k Hk. apply (Hn k).
      unfold has_it, holds in *. simpl in Hk. unfold upd in Hk. destruct (Nat.eqb_spec k j); [subst; simpl in Hk; intuition congruence|exact Hk].
    + split; [split; auto|reflexivity].
    + exfalso. apply (Hn j). right. right. auto.
  - exfalso. apply (Hn j). right. left. auto.
  - assert (E : cl (remove_link s j) = cl s /\ taken (remove_link s j) = taken s /\ alog (remove_link s j) = alog s)
      by (unfold remove_link; destruct (a_link (cl s j)); repeat split).
    destruct E as (E & E2 & E3). split.
    + split; simpl; [congruence|]. intros k Hk. apply (Hn k). unfold has_it, holds in *. simpl in Hk. rewrite E in Hk. unfold upd in Hk.
      destruct (Nat.eqb_spec k j); [subst; simpl in Hk; intuition congruence|exact Hk].
    + simpl. rewrite E3, filter_app. simpl. now rewrite app_nil_r.
  - unfold do_try in *. rewrite HE in *. split; [split; auto|]. simpl. rewrite filter_app. simpl. now rewrite app_nil_r.
  - exfalso. apply (Hn j). now left.
  - split; [|reflexivity]. split; auto.
Qed.

(** Schedules in which no future that was handed the arbiter is dropped before it is polled again. *)
Definition kind_cancel s (l : @alabel V) : Prop := match l with ACancel j => a_link (cl s j) <> KPopped | _ => True end.

Lemma owned_step s l s' : AInv s -> (taken s = true -> exists j, has_it s j) -> kind_cancel s l -> astep s l = Some s' ->
  taken s' = true -> exists j, has_it s' j.
Proof.
  intros H Ho Hg Hs Ht. destruct l as [j|j w|j|j|j|j|j v]; simpl in Hs; destruct (a_pc (cl s j)) eqn:Ep; try discriminate; injection Hs as <-.
  - destruct (Ho Ht) as [k Hk]. exists k. unfold has_it, holds, set_cl in *. simpl. unfold upd. destruct (Nat.eqb_spec k j); [subst; intuition congruence|exact Hk].
  - unfold do_poll in *. destruct (queue_empty s && negb (taken s))%bool eqn:Ec.
    + exists j. right. left. unfold set_apc, set_cl. simpl. now rewrite upd_same.
    + destruct (a_link (cl s j)) eqn:El; simpl in Ht.
      * destruct (Ho Ht) as [k Hk]. exists k. unfold has_it, holds in *. simpl. unfold upd. destruct (Nat.eqb_spec k j); [subst; intuition congruence|exact Hk].
      * auto.
      * exists j. right. left. unfold set_apc, set_cl. simpl. now rewrite upd_same.
  - exists j. left. unfold holds. simpl. now rewrite upd_same.
  - assert (E : cl (remove_link s j) = cl s /\ taken (remove_link s j) = taken s) by (unfold remove_link; destruct (a_link (cl s j)); repeat split).
    destruct E as [E E2]. simpl in Ht. rewrite E2 in Ht. destruct (Ho Ht) as [k Hk]. exists k. unfold has_it, holds in *. simpl. rewrite E. unfold upd.
    simpl in Hg. destruct (Nat.eqb_spec k j); [subst; intuition congruence|exact Hk].
  - unfold do_try in *. destruct (queue_empty s && negb (taken s))%bool eqn:Ec; [|auto].
    exists j. left. unfold holds. simpl. now rewrite upd_same.
  - unfold do_release in *. simpl in *. destruct (awq s) as [|i q] eqn:Eq; [discriminate|].
    exists i. right. right. simpl. rewrite upd_same. simpl. split; [|reflexivity].
    assert (Ei : a_link (cl s i) = KQueued) by (apply (I_in H); rewrite Eq; now left).
    assert (i <> j) by (intros ->; apply (I_q H) in Ei; congruence). rewrite upd_other by assumption. now apply (I_q H).
  - destruct (Ho Ht) as [k Hk]. exists k. exact Hk.
Qed.

Lemma owned_reach v s : greach astep kind_cancel (arb_new v) s -> taken s = true -> exists j, has_it s j.
Proof.
  intros Hr. assert (AInv s /\ (taken s = true -> exists j, has_it s j)) as [_ X]; [|exact X].
  refine (@greach_inv _ _ astep kind_cancel (fun s => AInv s /\ (taken s = true -> exists j, has_it s j)) (arb_new v) _ _ s Hr).
  - split; [apply AInv_new|discriminate].
  - intros s1 l s2 [H1 H2] Hg Hs. split; [eapply AInv_step; eauto|]. intros Ht. eapply owned_step; eauto.
Qed.
End Proofs.
