From Verif Require Import Base LTS TicksModel TicksProofs TimerListSpec TimerListProofs TimerQueueModel.
From Coq Require Import Sorting.Sorted.
Open Scope Z_scope.
Set Implicit Arguments.

Section Proofs.
Context (w slack : Z) (Hw : 1 <= w) (Hslack : 0 <= slack).
Notation step := (tq_step w slack).

(** * Wrapping comparisons are exact inside the window *)
Lemma due_window s i : in_window w s ->
  f_pc (futs s i) <> DNone -> f_pc (futs s i) <> DDropped ->
  due w (clock s) (f_T (futs s i)) = (f_T (futs s i) <=? clock s).
Proof.
  intros (lo & hi & Hb & Hc & Hf & _) H1 H2. specialize (Hf i H1 H2).
  apply is_at_least_window; [assumption|lia].
Qed.

Lemma due_handler s T : in_window w s ->
  handler s = HEnable T \/ handler s = HSet T \/ handler s = HCheck T ->
  due w (clock s) T = (T <=? clock s).
Proof.
  intros (lo & hi & Hb & Hc & _ & Hh) H. specialize (Hh T H). apply is_at_least_window; [assumption|lia].
Qed.

(** * Structural invariant *)
Definition inq_pc (p : dpc) : Prop := p = DPend \/ p = DPending \/ p = DReady \/ p = DDel.
Definition pre_pc (p : dpc) : Prop := p = DNone \/ p = DNew \/ exists k, p = DIns k.

Definition zle (a b : nat * Z) : Prop := snd a <= snd b.

Record InvA (s : tq) : Prop := {
  A_nodup : NoDup (map fst (queue s));
  A_in : forall i T, In (i, T) (queue s) ->
         f_T (futs s i) = T /\ f_link (futs s i) = true /\ f_popped (futs s i) = false /\ inq_pc (f_pc (futs s i));
  A_link : forall i, f_link (futs s i) = true -> f_popped (futs s i) = false ->
           f_pc (futs s i) <> DDropped -> In (i, f_T (futs s i)) (queue s);
  A_pre : forall i, pre_pc (f_pc (futs s i)) -> f_link (futs s i) = false;
  A_late : forall i, f_popped (futs s i) = true -> f_T (futs s i) <= clock s;
  A_poplink : forall i, f_popped (futs s i) = true -> f_link (futs s i) = true;
  A_sorted : StronglySorted zle (queue s)
}.

Lemma InvA_init c : InvA (tq_init c).
Proof. constructor; simpl; try constructor; try discriminate; tauto. Qed.

Lemma drop_in_iff i (q : list (nat * Z)) j T : In (j, T) (drop_addr i q) <-> In (j, T) q /\ j <> i.
Proof.
  unfold drop_addr. rewrite filter_In. simpl. destruct (Nat.eqb_spec j i); simpl; intuition congruence.
Qed.

Lemma ins_in lt0 i T q j U : In (j, U) (@ins Z lt0 i T q) <-> (j = i /\ U = T) \/ In (j, U) q.
Proof.
  induction q as [|[k V] q IH]; simpl.
  - split; [intros [H|[]]; left; inversion H; auto|intros [[-> ->]|[]]; auto].
  - destruct (lt0 T V); simpl.
    + split; [intros [H|H]; [left; inversion H; auto|auto]|intros [[-> ->]|H]; auto].
    + rewrite IH. tauto.
Qed.

Lemma StronglySorted_filter {A} (R0 : A -> A -> Prop) g l : StronglySorted R0 l -> StronglySorted R0 (filter g l).
Proof.
  induction 1 as [|a l Hs IH Hf]; simpl; [constructor|].
  destruct (g a); [|exact IH]. constructor; [exact IH|].
  rewrite Forall_forall in *. intros x Hx. apply filter_In in Hx as [Hx _]. auto.
Qed.

(** insertion in the window keeps the true deadlines sorted *)
Lemma ins_sorted (P : Z -> Prop) i T q :
  (forall a b, P a -> P b -> dl_lt w a b = (a <? b)) ->
  P T -> (forall j U, In (j, U) q -> P U) ->
  StronglySorted zle q -> StronglySorted zle (ins (dl_lt w) i T q).
Proof.
  intros HP HT. induction q as [|[j U] q IH]; simpl; intros Hq Hs.
  - repeat constructor.
  - rewrite HP; [|assumption|eauto]. destruct (Z.ltb_spec T U) as [Hlt|Hge].
    + constructor; [exact Hs|]. inversion Hs as [|? ? Hs' Hall]; subst. constructor; [unfold zle; simpl; lia|].
      rewrite Forall_forall in *. intros [k V] Hk. specialize (Hall _ Hk). unfold zle in *. simpl in *. lia.
    + inversion Hs as [|? ? Hs' Hall]; subst. constructor.
      * apply IH; eauto.
      * rewrite Forall_forall in *. intros [k V] Hk. apply ins_in in Hk as [[-> ->]|Hk].
        -- unfold zle. simpl. lia.
        -- auto.
Qed.

Ltac updc := unfold upd in *; repeat match goal with
  | H : context [Nat.eqb ?a ?b] |- _ => destruct (Nat.eqb_spec a b); subst
  | |- context [Nat.eqb ?a ?b] => destruct (Nat.eqb_spec a b); subst
  end; simpl in *.

Ltac pcs := unfold inq_pc, pre_pc in *.

Lemma pc_not_pre p : inq_pc p -> pre_pc p -> False.
Proof. pcs. intros [->|[->|[->| ->]]] [H|[H|[k H]]]; discriminate. Qed.

(** changing only the pc of future [i] *)
Lemma InvA_set_pc s i p :
  InvA s ->
  ((exists T, In (i, T) (queue s)) -> inq_pc p) ->
  (f_pc (futs s i) = DDropped -> p = DDropped) ->
  (pre_pc p -> f_link (futs s i) = false) ->
  InvA (set_pc s i p).
Proof.
  intros [H1 H2 H3 H4 H5 H6 H7] Hq Hd Hp. constructor; simpl; auto.
  - intros j T Hin. updc; [|auto]. destruct (H2 i T Hin) as (?&?&?&?). eauto 6.
  - intros j. updc; [|auto]. intros. apply H3; auto. 
  - intros j. updc; auto.
  - intros j. updc; auto.
  - intros j. updc; auto.
Qed.

Lemma InvA_step s l s' : InvA s -> in_window w s -> step s l = Some s' -> InvA s'.
Proof.
  intros HI HW Hs. destruct l as [|i T|i wk|i|i|i|i| | | | | |c| |]; simpl in Hs.
  - (* Tick *) injection Hs as <-. destruct HI as [H1 H2 H3 H4 H5 H6 H7]. constructor; simpl; auto.
    intros i Hi. specialize (H5 i Hi). lia.
  - (* Create *)
    destruct (f_pc (futs s i)) eqn:Epc; try discriminate. injection Hs as <-.
    assert (Hni : forall T', ~ In (i, T') (queue s)).
    { intros T' Hin. apply (A_in HI) in Hin as (_ & _ & _ & Hpc). rewrite Epc in Hpc.
      destruct Hpc as [H|[H|[H|H]]]; discriminate. }
    destruct HI as [H1 H2 H3 H4 H5 H6 H7]. constructor; simpl; auto.
    + intros j U Hin. updc; [now apply Hni in Hin|auto].
    + intros j. updc; [discriminate|auto].
    + intros j. updc; [auto|auto].
    + intros j. updc; [discriminate|auto].
    + intros j. updc; [discriminate|auto].
  - (* Poll *)
    assert (Hpc : f_pc (futs s i) = DNew \/ f_pc (futs s i) = DPending).
    { destruct (f_pc (futs s i)); try discriminate; auto. }
    assert (Hs' : (if due w (clock s) (f_T (futs s i)) then Some (set_pc s i DReady)
              else if f_link (futs s i) then Some (set_pc s i DPending) else Some (set_pc s i (DIns wk))) = Some s').
    { destruct Hpc as [E|E]; rewrite E in Hs; exact Hs. }
    clear Hs.
    destruct (due w (clock s) (f_T (futs s i))).
    + injection Hs' as <-. apply InvA_set_pc; auto.
      * intros _. pcs. auto.
      * intros E. destruct Hpc; congruence.
      * pcs. intros [H|[H|[k H]]]; discriminate.
    + destruct (f_link (futs s i)) eqn:El; injection Hs' as <-; apply InvA_set_pc; auto.
      * intros _. pcs. auto.
      * intros E. destruct Hpc; congruence.
      * pcs. intros [H|[H|[k H]]]; discriminate.
      * intros [T Hin]. apply (A_in HI) in Hin as (_ & Hl & _). congruence.
      * intros E. destruct Hpc; congruence.
  - (* Insert *)
    destruct (f_pc (futs s i)) as [| |wk| | | | |] eqn:Epc; try discriminate. injection Hs as <-.
    assert (Hl : f_link (futs s i) = false) by (apply (A_pre HI); rewrite Epc; pcs; eauto).
    assert (Hni : forall T', ~ In (i, T') (queue s)).
    { intros T' Hin. apply (A_in HI) in Hin as (_ & Hl' & _). congruence. }
    set (hu := match ins (dl_lt w) i (f_T (futs s i)) (queue s) with (j, _) :: _ => (j =? i)%nat | [] => false end).
    assert (Hsrt : StronglySorted zle (ins (dl_lt w) i (f_T (futs s i)) (queue s))).
    { destruct HW as (lo & hi & Hb & Hc & Hf & _).
      apply ins_sorted with (P := fun z => lo <= z <= hi).
      - intros a b Ha Hb'. apply tick_lt_window; [assumption|lia].
      - apply Hf; rewrite Epc; discriminate.
      - intros j U Hin. apply (A_in HI) in Hin as (<- & _ & _ & Hpc). apply Hf; destruct Hpc as [H|[H|[H|H]]]; rewrite H; discriminate.
      - apply (A_sorted HI). }
    destruct HI as [H1 H2 H3 H4 H5 H6 H7].
    assert (Hpcn : inq_pc (if hu then DPend else DPending)) by (pcs; destruct hu; auto).
    constructor; simpl; auto.
    + apply (ins_nodup (dl_lt w)); [exact H1|]. intros Hin. apply in_map_iff in Hin as [[k U] [E Hin]].
      simpl in E. subst. now apply Hni in Hin.
    + intros j U Hin. apply ins_in in Hin as [[-> ->]|Hin].
      * rewrite !upd_same. simpl. auto.
      * updc; [now apply Hni in Hin|auto].
    + intros j. rewrite ins_in. updc; [auto|]. intros. right. auto.
    + intros j. updc; [|auto]. intros H. exfalso. eapply pc_not_pre; eauto.
    + intros j. updc; [discriminate|auto].
    + intros j. updc; [auto|auto].
  - (* Pend *)
    destruct (f_pc (futs s i)) eqn:Epc; try discriminate. injection Hs as <-.
    assert (HI' : InvA (set_pc s i DPending)).
    { apply InvA_set_pc; auto.
      - intros _. pcs. auto.
      - intros E. congruence.
      - pcs. intros [H|[H|[k H]]]; discriminate. }
    destruct HI' as [H1 H2 H3 H4 H5 H6 H7]. constructor; simpl in *; auto.
  - (* Drop *)
    assert (Hpc : f_pc (futs s i) = DNew \/ f_pc (futs s i) = DPending \/ f_pc (futs s i) = DReady).
    { destruct (f_pc (futs s i)); try discriminate; auto. }
    assert (Hs' : (if negb (f_link (futs s i)) then Some (set_pc s i DDropped)
              else if f_popped (futs s i) then Some (set_pc s i DDropped) else Some (set_pc s i DDel)) = Some s').
    { destruct Hpc as [E|[E|E]]; rewrite E in Hs; exact Hs. }
    clear Hs.
    destruct (f_link (futs s i)) eqn:El; simpl in Hs'; [destruct (f_popped (futs s i)) eqn:Ep|]; injection Hs' as <-;
      apply InvA_set_pc; auto.
    + intros [T Hin]. apply (A_in HI) in Hin as (_ & _ & Hp & _). congruence.
    + pcs. intros [H|[H|[k H]]]; discriminate.
    + intros _. pcs. auto 6.
    + intros E. destruct Hpc as [H|[H|H]]; congruence.
    + pcs. intros [H|[H|[k H]]]; discriminate.
    + intros [T Hin]. apply (A_in HI) in Hin as (_ & Hl & _). congruence.
  - (* Delete *)
    destruct (f_pc (futs s i)) eqn:Epc; try discriminate. injection Hs as <-.
    destruct HI as [H1 H2 H3 H4 H5 H6 H7]. constructor; simpl; auto.
    + apply (drop_nodup (dl_lt w)). exact H1.
    + intros j U Hin. apply drop_in_iff in Hin as [Hin Hne]. updc; [congruence|auto].
    + intros j. rewrite drop_in_iff. updc; [congruence|]. intros. split; [auto|congruence].
    + intros j. updc; [|auto]. pcs. intros [H|[H|[k H]]]; discriminate.
    + intros j. updc; auto.
    + intros j. updc; auto.
    + apply StronglySorted_filter. exact H7.
  - (* IrqEnter *)
    destruct (handler s); try discriminate. destruct (irq_sw s || irq_cmp s)%bool; [|discriminate].
    injection Hs as <-. destruct HI; constructor; simpl; auto.
  - destruct (handler s); try discriminate. injection Hs as <-. destruct HI; constructor; simpl; auto.
  - (* HPop *)
    destruct (handler s) eqn:Eh; try discriminate.
    destruct (queue s) as [|[i T] q] eqn:Eq.
    + injection Hs as <-. destruct HI as [H1 H2 H3 H4 H5 H6 H7]. constructor; simpl; auto.
    + assert (Hin0 : In (i, T) (queue s)) by (rewrite Eq; now left).
      destruct (A_in HI _ _ Hin0) as (HT & Hl & Hp & Hpc).
      assert (Hd : due w (clock s) T = (T <=? clock s)).
      { rewrite <- HT. apply due_window; auto; intros E; rewrite E in Hpc; destruct Hpc as [H|[H|[H|H]]]; discriminate. }
      destruct HI as [H1 H2 H3 H4 H5 H6 H7]. rewrite Eq in *.
      rewrite Hd in Hs. destruct (Z.leb_spec T (clock s)) as [Hle|Hgt]; injection Hs as <-.
      * simpl in H1. inversion H1 as [|? ? Hni Hnd]; subst. inversion H7 as [|? ? Hs7 Hall]; subst.
        constructor; simpl; auto.
        -- intros j U Hin. updc.
           { exfalso. apply Hni. apply in_map_iff. now exists (i, U). }
           { apply H2. now right. }
        -- intros j. updc; [discriminate|]. intros Ha Hb Hc. destruct (H3 j Ha Hb Hc) as [E|Hin]; [congruence|exact Hin].
        -- intros j. updc; auto.
        -- intros j. updc; auto.
        -- intros j. updc; auto.
      * constructor; simpl; try rewrite Eq; auto.
        -- intros j U Hin. destruct (H2 j U Hin) as (K1 & K2 & K3 & K4). updc; auto.
        -- intros j. updc; auto.
        -- intros j. updc; auto.
        -- intros j. updc; [discriminate|auto].
        -- intros j. updc; [discriminate|auto].
  - destruct (handler s); try discriminate. injection Hs as <-. destruct HI; constructor; simpl; auto.
  - destruct (handler s); try discriminate. injection Hs as <-. destruct HI; constructor; simpl; auto.
  - destruct (handler s); try discriminate. destruct (arm_ok slack (clock s) T c); [|discriminate].
    injection Hs as <-. destruct HI; constructor; simpl; auto.
  - destruct (handler s); try discriminate. injection Hs as <-. destruct HI; constructor; simpl; auto.
  - destruct (handler s); try discriminate. injection Hs as <-. destruct HI; constructor; simpl; auto.
Qed.

Definition safe_reach (c0 : Z) (s : tq) : Prop := greach step (@guard w) (tq_init c0) s.

Lemma InvA_reach c0 s : safe_reach c0 s -> InvA s.
Proof.
  apply greach_inv with (P := InvA); [apply InvA_init|]. intros s1 l s2 HI HG Hs. eapply InvA_step; eauto.
Qed.

(** * Coverage: an unserved queue always has an interrupt coming *)
Definition covered (s : tq) : Prop :=
  queue s = [] \/ irq_sw s = true \/ exists i, f_pc (futs s i) = DPend.

Definition head_ge (s : tq) (T : Z) : Prop :=
  match queue s with [] => True | (_, U) :: _ => T <= U end.

Definition armed_for (s : tq) (T : Z) : Prop :=
  enabled s = true /\ exists c, armed s = Some c /\ clock s < c <= T + slack.

Definition InvK (s : tq) : Prop :=
  match handler s with
  | HIdle => covered s \/ irq_cmp s = true \/ exists T, head_ge s T /\ armed_for s T
  | HEnable T | HSet T => covered s \/ (head_ge s T)
  | HCheck T => covered s \/ (head_ge s T /\ (enabled s = true /\ (T <= clock s \/ irq_cmp s = true \/ armed_for s T)))
  | HDisable => covered s
  | HClear | HLoop | HWake _ _ => True
  end /\
  (forall T, handler s = HSet T -> enabled s = true).

Lemma InvK_init c : InvK (tq_init c).
Proof. split; simpl; [left; left; reflexivity|discriminate]. Qed.

Lemma head_ge_cons s T : head_ge s T <-> forall i U q, queue s = (i, U) :: q -> T <= U.
Proof.
  unfold head_ge. destruct (queue s) as [|[i U] q].
  - split; [intros _ ? ? ? H; discriminate|auto].
  - split; [intros H ? ? ? E; inversion E; subst; exact H|intros H; eapply H; reflexivity].
Qed.

(** queue changes made by futures never spoil coverage *)
Lemma cov_mono s s' :
  handler s' = handler s -> enabled s' = enabled s -> armed s' = armed s -> clock s' = clock s ->
  (irq_cmp s = true -> irq_cmp s' = true) ->
  (covered s -> covered s') ->
  (forall T, head_ge s T -> covered s' \/ head_ge s' T) ->
  InvK s -> InvK s'.
Proof.
  intros Eh Ee Ea Ec Hi Hc Hg [HK HE]. split.
  2:{ intros T. rewrite Eh, Ee. apply HE. }
  unfold InvK in *. rewrite Eh. unfold armed_for in *. rewrite Ee, Ea, Ec.
  destruct (handler s); auto.
  - destruct HK as [H|[H|(T & H1 & H2)]]; auto. destruct (Hg T H1); eauto 6.
  - destruct HK as [H|H]; auto.
  - destruct HK as [H|H]; auto.
  - destruct HK as [H|(H1 & H2 & H3)]; auto. destruct (Hg _ H1); auto. right. split; [assumption|]. split; [assumption|].
    destruct H3 as [H3|[H3|H3]]; auto.
Qed.

Lemma cov_same s s' :
  handler s' = handler s -> enabled s' = enabled s -> armed s' = armed s -> clock s' = clock s ->
  (irq_cmp s = true -> irq_cmp s' = true) ->
  queue s' = queue s -> (irq_sw s = true -> irq_sw s' = true) ->
  (forall i, f_pc (futs s i) = DPend -> irq_sw s' = true \/ f_pc (futs s' i) = DPend) ->
  InvK s -> InvK s'.
Proof.
  intros Eh Ee Ea Ec Hi Eq Hsw Hp. apply cov_mono; auto.
  - intros [H|[H|[i H]]]; [left; congruence|right; left; auto|].
    destruct (Hp i H); [right; left; auto|right; right; eauto].
  - intros T H. right. unfold head_ge in *. now rewrite Eq.
Qed.

Lemma InvK_step s l s' : InvA s -> InvK s -> in_window w s -> step s l = Some s' -> InvK s'.
Proof.
  intros HA HK HW Hs. destruct l as [|i T|i wk|i|i|i|i| | | | | |c| |]; simpl in Hs.
  - (* Tick *)
    injection Hs as <-. destruct HK as [HK HE]. split; [|exact HE].
    unfold covered, head_ge, armed_for in *. cbn [handler queue irq_sw futs irq_cmp enabled armed clock].
    assert (Harm : forall T, enabled s = true -> (exists c, armed s = Some c /\ clock s < c <= T + slack) ->
       (irq_cmp s || match armed s with Some a => enabled s && (a =? clock s + 1) | None => false end)%bool = true \/
       (enabled s = true /\ exists c, armed s = Some c /\ clock s + 1 < c <= T + slack)).
    { intros T He (c & Ec & Hc). rewrite Ec, He. simpl. destruct (Z.eqb_spec c (clock s + 1)) as [E|E].
      - left. now rewrite orb_true_r.
      - right. split; [reflexivity|]. exists c. split; [reflexivity|lia]. }
    destruct (handler s); auto.
    + destruct HK as [H|[H|(T & H1 & H2 & H3)]]; auto.
      * right. left. now rewrite H.
      * destruct (Harm T H2 H3); eauto 6.
    + destruct HK as [H|(H1 & H2 & H3)]; auto. right. split; [assumption|]. split; [assumption|].
      destruct H3 as [H3|[H3|[_ H3]]].
      * left. lia.
      * right. left. now rewrite H3.
      * destruct (Harm T H2 H3); auto.
  - (* Create *)
    destruct (f_pc (futs s i)) eqn:Epc; try discriminate. injection Hs as <-.
    apply cov_same with (s := s); try reflexivity; auto. simpl. intros j Hj. updc; [congruence|auto].
  - (* Poll *)
    assert (Hpc : f_pc (futs s i) <> DPend) by (intros E; rewrite E in Hs; discriminate).
    assert (Hs' : exists p, s' = set_pc s i p).
    { destruct (f_pc (futs s i)); try discriminate; destruct (due w (clock s) (f_T (futs s i))), (f_link (futs s i));
        injection Hs as <-; eauto. }
    destruct Hs' as [p ->].
    apply cov_same with (s := s); try reflexivity; auto. simpl. intros j Hj. updc; [congruence|auto].
  - (* Insert *)
    destruct (f_pc (futs s i)) as [| |wk| | | | |] eqn:Epc; try discriminate. injection Hs as <-.
    apply cov_mono with (s := s); try reflexivity; auto.
    + (* covered *)
      intros [H|[H|[j H]]].
      * rewrite H. simpl. right. right. exists i. simpl. rewrite upd_same. simpl. now rewrite Nat.eqb_refl.
      * right. left. exact H.
      * right. right. exists j. simpl. updc; [congruence|exact H].
    + intros T H. unfold head_ge in *. simpl.
      destruct (queue s) as [|[j U] q] eqn:Eq; simpl.
      * left. right. right. exists i. simpl. rewrite upd_same. simpl. now rewrite Nat.eqb_refl.
      * destruct (dl_lt w (f_T (futs s i)) U).
        -- left. right. right. exists i. simpl. rewrite upd_same. simpl. now rewrite Nat.eqb_refl.
        -- right. exact H.
  - (* Pend *)
    destruct (f_pc (futs s i)) eqn:Epc; try discriminate. injection Hs as <-.
    apply cov_same with (s := s); try reflexivity; auto.
  - (* Drop *)
    assert (Hpc : f_pc (futs s i) <> DPend) by (intros E; rewrite E in Hs; discriminate).
    assert (Hs' : exists p, s' = set_pc s i p).
    { destruct (f_pc (futs s i)); try discriminate; destruct (f_link (futs s i)), (f_popped (futs s i));
        injection Hs as <-; eauto. }
    destruct Hs' as [p ->].
    apply cov_same with (s := s); try reflexivity; auto. simpl. intros j Hj. updc; [congruence|auto].
  - (* Delete *)
    destruct (f_pc (futs s i)) eqn:Epc; try discriminate. injection Hs as <-.
    apply cov_mono with (s := s); try reflexivity; auto.
    + intros [H|[H|[j H]]].
      * left. simpl. now rewrite H.
      * right. left. exact H.
      * right. right. exists j. simpl. updc; [congruence|exact H].
    + intros T H. right. rewrite head_ge_cons in *. simpl. intros j U q E.
      assert (Hin : In (j, U) (drop_addr i (queue s))) by (rewrite E; now left).
      apply drop_in_iff in Hin as [Hin _].
      pose proof (A_sorted HA) as Hsrt. destruct (queue s) as [|[k V] q0] eqn:Eq; [destruct Hin|].
      specialize (H k V q0 eq_refl). destruct Hin as [E2|Hin].
      * inversion E2; subst. exact H.
      * inversion Hsrt as [|? ? _ Hall]; subst. rewrite Forall_forall in Hall. specialize (Hall _ Hin).
        unfold zle in Hall. simpl in Hall. lia.
  - (* IrqEnter *)
    destruct (handler s); try discriminate. destruct (irq_sw s || irq_cmp s)%bool; [|discriminate].
    injection Hs as <-. split; simpl; [exact I|discriminate].
  - destruct (handler s); try discriminate. injection Hs as <-. split; simpl; [exact I|discriminate].
  - (* HPop *)
    destruct (handler s) eqn:Eh; try discriminate.
    destruct (queue s) as [|[i T] q] eqn:Eq.
    + injection Hs as <-. split; simpl; [left; exact Eq|discriminate].
    + destruct (due w (clock s) T); injection Hs as <-; split; simpl; try exact I; try discriminate.
      right. unfold head_ge. simpl. rewrite Eq. lia.
  - destruct (handler s); try discriminate. injection Hs as <-. split; simpl; [exact I|discriminate].
  - (* HEnable *)
    destruct (handler s) eqn:Eh; try discriminate. injection Hs as <-. destruct HK as [HK HE]. rewrite Eh in HK.
    split; simpl; [exact HK|]. reflexivity.
  - (* HSet *)
    destruct (handler s) eqn:Eh; try discriminate. destruct (arm_ok slack (clock s) T c) eqn:Ea; [|discriminate].
    injection Hs as <-. destruct HK as [HK HE]. rewrite Eh in HK. specialize (HE T Eh).
    split; [|simpl; discriminate]. simpl. destruct HK as [H|H]; [left; exact H|]. right. split; [exact H|]. split; [exact HE|].
    unfold arm_ok in Ea. destruct (Z.ltb_spec (clock s) T) as [Hlt|Hge]; [|left; lia].
    right. right. split; [exact HE|]. simpl. destruct c as [c0|]; [|discriminate].
    apply andb_true_iff in Ea as [E1 E2]. exists c0. split; [reflexivity|]. lia.
  - (* HCheck *)
    destruct (handler s) eqn:Eh; try discriminate. injection Hs as <-. destruct HK as [HK HE]. rewrite Eh in HK.
    rewrite (due_handler HW) by eauto.
    destruct (Z.leb_spec T (clock s)) as [Hle|Hgt]; split; simpl; try exact I; try discriminate.
    destruct HK as [H|(H1 & H2 & [H3|[H3|H3]])].
    + left. exact H.
    + lia.
    + right. left. exact H3.
    + right. right. exists T. split; [exact H1|exact H3].
  - (* HDisable *)
    destruct (handler s) eqn:Eh; try discriminate. injection Hs as <-. destruct HK as [HK HE]. rewrite Eh in HK.
    split; simpl; [left; exact HK|discriminate].
Qed.

Lemma InvAK_reach c0 s : safe_reach c0 s -> InvA s /\ InvK s.
Proof.
  apply greach_inv with (P := fun s => InvA s /\ InvK s).
  - split; [apply InvA_init|apply InvK_init].
  - intros s1 l s2 [HA HK] HG Hs. split; [eapply InvA_step; eauto|eapply InvK_step; eauto].
Qed.

(** Main safety statement: an overdue entry never waits without an interrupt on its way. *)
Lemma no_missed_deadline c0 s i T :
  safe_reach c0 s -> handler s = HIdle -> In (i, T) (queue s) -> T + slack <= clock s ->
  irq_sw s = true \/ irq_cmp s = true \/ exists j, f_pc (futs s j) = DPend.
Proof.
  intros Hr Hh Hin Ht. destruct (InvAK_reach Hr) as [HA [HK _]]. rewrite Hh in HK.
  destruct HK as [[H|[H|[j H]]]|[H|(U & Hg & He & c & Ec & Hc)]]; eauto.
  - rewrite H in Hin. destruct Hin.
  - exfalso. unfold head_ge in Hg. pose proof (A_sorted HA) as Hsrt.
    destruct (queue s) as [|[k V] q]; [destruct Hin|]. destruct Hin as [E|Hin].
    + inversion E; subst. lia.
    + inversion Hsrt as [|? ? _ Hall]; subst. rewrite Forall_forall in Hall. specialize (Hall _ Hin).
      unfold zle in Hall. simpl in Hall. lia.
Qed.

(** And before that point the compare unit is armed early enough. *)
Lemma always_armed c0 s i T :
  safe_reach c0 s -> handler s = HIdle -> In (i, T) (queue s) ->
  irq_sw s = true \/ irq_cmp s = true \/ (exists j, f_pc (futs s j) = DPend) \/
  (enabled s = true /\ exists c, armed s = Some c /\ clock s < c <= T + slack).
Proof.
  intros Hr Hh Hin. destruct (InvAK_reach Hr) as [HA [HK _]]. rewrite Hh in HK.
  destruct HK as [[H|[H|[j H]]]|[H|(U & Hg & He & c & Ec & Hc)]]; eauto.
  - rewrite H in Hin. destruct Hin.
  - right. right. right. split; [exact He|]. exists c. split; [exact Ec|].
    assert (U <= T); [|lia].
    unfold head_ge in Hg. pose proof (A_sorted HA) as Hsrt.
    destruct (queue s) as [|[k V] q]; [destruct Hin|]. destruct Hin as [E|Hin].
    + inversion E; subst. lia.
    + inversion Hsrt as [|? ? _ Hall]; subst. rewrite Forall_forall in Hall. specialize (Hall _ Hin).
      unfold zle in Hall. simpl in Hall. lia.
Qed.

(** Readiness is never early. *)
Lemma ready_not_early c0 s l s' i :
  safe_reach c0 s -> in_window w s -> step s l = Some s' ->
  f_pc (futs s i) <> DReady -> f_pc (futs s' i) = DReady -> f_T (futs s i) <= clock s.
Proof.
  intros Hr HW Hs H0 H1.
  destruct l as [|k T|k wk|k|k|k|k| | | | | |c| |]; simpl in Hs.
  - injection Hs as <-. simpl in H1. congruence.
  - destruct (f_pc (futs s k)); try discriminate. injection Hs as <-. simpl in H1. updc; congruence.
  - assert (Hpc : f_pc (futs s k) = DNew \/ f_pc (futs s k) = DPending).
    { destruct (f_pc (futs s k)); try discriminate; auto. }
    destruct (due w (clock s) (f_T (futs s k))) eqn:Ed.
    + assert (s' = set_pc s k DReady) by (destruct Hpc as [E|E]; rewrite E in Hs; congruence). subst s'.
      simpl in H1. unfold upd in H1. destruct (Nat.eqb_spec i k) as [->|]; [|congruence].
      rewrite due_window in Ed; auto; try (intros E; destruct Hpc; congruence). lia.
    + assert (s' = set_pc s k DPending \/ s' = set_pc s k (DIns wk)).
      { destruct Hpc as [E|E]; rewrite E in Hs; destruct (f_link (futs s k)); injection Hs as <-; auto. }
      destruct H; subst s'; simpl in H1; updc; congruence.
  - destruct (f_pc (futs s k)); try discriminate. injection Hs as <-. simpl in H1.
    revert H1. unfold upd. destruct (Nat.eqb i k); simpl; [|congruence].
    destruct (ins (dl_lt w) k (f_T (futs s k)) (queue s)) as [|[? ?] ?]; [discriminate|]. destruct (Nat.eqb n k); discriminate.
  - destruct (f_pc (futs s k)); try discriminate. injection Hs as <-. simpl in H1. updc; congruence.
  - destruct (f_pc (futs s k)); try discriminate; destruct (f_link (futs s k)), (f_popped (futs s k));
      injection Hs as <-; simpl in H1; updc; congruence.
  - destruct (f_pc (futs s k)); try discriminate. injection Hs as <-. simpl in H1. updc; congruence.
  - destruct (handler s); try discriminate. destruct (irq_sw s || irq_cmp s)%bool; [|discriminate].
    injection Hs as <-. simpl in H1. congruence.
  - destruct (handler s); try discriminate. injection Hs as <-. simpl in H1. congruence.
  - destruct (handler s); try discriminate. destruct (queue s) as [|[k T] q]; [injection Hs as <-; simpl in H1; congruence|].
    destruct (due w (clock s) T); injection Hs as <-; simpl in H1; updc; congruence.
  - destruct (handler s); try discriminate. injection Hs as <-. simpl in H1. congruence.
  - destruct (handler s); try discriminate. injection Hs as <-. simpl in H1. congruence.
  - destruct (handler s); try discriminate. destruct (arm_ok slack (clock s) T c); [|discriminate].
    injection Hs as <-. simpl in H1. congruence.
  - destruct (handler s); try discriminate. injection Hs as <-. simpl in H1. congruence.
  - destruct (handler s); try discriminate. injection Hs as <-. simpl in H1. congruence.
Qed.

(** A dropped future is not referenced by the queue. *)
Lemma dropped_not_queued c0 s i T :
  safe_reach c0 s -> f_pc (futs s i) = DDropped -> ~ In (i, T) (queue s).
Proof.
  intros Hr Hd Hin. apply (A_in (InvA_reach Hr)) in Hin as (_ & _ & _ & Hpc). rewrite Hd in Hpc.
  destruct Hpc as [H|[H|[H|H]]]; discriminate.
Qed.

Lemma pending_link c0 s :
  safe_reach c0 s -> forall i, f_pc (futs s i) = DPending \/ f_pc (futs s i) = DPend -> f_link (futs s i) = true.
Proof.
  refine (@greach_inv _ _ step (@guard w) (fun s => forall i, f_pc (futs s i) = DPending \/ f_pc (futs s i) = DPend -> f_link (futs s i) = true) (tq_init c0) _ _ s).
  - simpl. intros j [H|H]; discriminate.
  - clear. intros s l s' IH _ Hs j.
    destruct l as [|k T|k wk|k|k|k|k| | | | | |c| |]; simpl in Hs.
    + injection Hs as <-. apply IH.
    + destruct (f_pc (futs s k)); try discriminate. injection Hs as <-. simpl. updc; [intros [H|H]; discriminate|apply IH].
    + destruct (f_pc (futs s k)) eqn:E; try discriminate; destruct (due w (clock s) (f_T (futs s k))), (f_link (futs s k)) eqn:El;
        injection Hs as <-; simpl; updc; auto; intros [H|H]; discriminate.
    + destruct (f_pc (futs s k)); try discriminate. injection Hs as <-. simpl. updc; auto.
    + destruct (f_pc (futs s k)) eqn:E; try discriminate. injection Hs as <-. simpl. updc; auto.
    + destruct (f_pc (futs s k)) eqn:E; try discriminate; destruct (f_link (futs s k)) eqn:El, (f_popped (futs s k));
        injection Hs as <-; simpl; updc; auto; intros [H|H]; discriminate.
    + destruct (f_pc (futs s k)); try discriminate. injection Hs as <-. simpl. updc; auto; intros [H|H]; discriminate.
    + destruct (handler s); try discriminate. destruct (irq_sw s || irq_cmp s)%bool; [|discriminate].
      injection Hs as <-. apply IH.
    + destruct (handler s); try discriminate. injection Hs as <-. apply IH.
    + destruct (handler s); try discriminate. destruct (queue s) as [|[k T] q]; [injection Hs as <-; apply IH|].
      destruct (due w (clock s) T); injection Hs as <-; simpl; updc; auto.
    + destruct (handler s); try discriminate. injection Hs as <-. apply IH.
    + destruct (handler s); try discriminate. injection Hs as <-. apply IH.
    + destruct (handler s); try discriminate. destruct (arm_ok slack (clock s) T c); [|discriminate]. injection Hs as <-. apply IH.
    + destruct (handler s); try discriminate. injection Hs as <-. apply IH.
    + destruct (handler s); try discriminate. injection Hs as <-. apply IH.
Qed.

(** A waiting future is in the queue under its deadline until it is popped, and when popped its next
    poll completes. *)
Lemma pending_queued_or_ready c0 s i wk :
  safe_reach c0 s -> in_window w s -> f_pc (futs s i) = DPending ->
  In (i, f_T (futs s i)) (queue s) \/
  (exists s', step s (Poll i wk) = Some s' /\ f_pc (futs s' i) = DReady).
Proof.
  intros Hr HW Hp. pose proof (InvA_reach Hr) as HA.
  destruct (f_popped (futs s i)) eqn:Epop.
  - right. simpl. rewrite Hp.
    rewrite due_window by (auto; congruence).
    pose proof (A_late HA i Epop) as Hle. apply Z.leb_le in Hle. rewrite Hle.
    eexists; split; [reflexivity|]. simpl. now rewrite upd_same.
  - left. apply (A_link HA); auto; [|congruence].
    destruct (f_link (futs s i)) eqn:El; [reflexivity|]. exfalso.
    rewrite (pending_link Hr) in El; auto. discriminate.
Qed.

(** The handler takes the earliest entry, and only when it is due. *)
Lemma pop_earliest c0 s s' i wk :
  safe_reach c0 s -> in_window w s -> step s HPop = Some s' -> handler s' = HWake i wk ->
  exists T, In (i, T) (queue s) /\ T <= clock s /\ wk = f_waker (futs s i) /\
    queue s = (i, T) :: queue s' /\ (forall j U, In (j, U) (queue s) -> T <= U).
Proof.
  intros Hr HW Hs Hh. pose proof (InvA_reach Hr) as HA. simpl in Hs.
  destruct (handler s); try discriminate.
  destruct (queue s) as [|[k T] q] eqn:Eq; [injection Hs as <-; discriminate|].
  assert (Hin0 : In (k, T) (queue s)) by (rewrite Eq; now left).
  destruct (A_in HA _ _ Hin0) as (HT & _ & _ & Hpc).
  assert (Hd : due w (clock s) T = (T <=? clock s)).
  { rewrite <- HT. apply due_window; auto; intros E; rewrite E in Hpc; destruct Hpc as [H|[H|[H|H]]]; discriminate. }
  rewrite Hd in Hs. destruct (Z.leb_spec T (clock s)); injection Hs as <-; simpl in Hh; [|discriminate].
  injection Hh as -> ->. exists T. repeat split; auto.
  - now left.
  - intros j U [E|Hin]; [inversion E; lia|].
    pose proof (A_sorted HA) as Hsrt. rewrite Eq in Hsrt. inversion Hsrt as [|? ? _ Hall]; subst.
    rewrite Forall_forall in Hall. apply (Hall _ Hin).
Qed.

(** When the handler returns, every remaining deadline is in the future, or an interrupt is coming. *)
Lemma return_all_served c0 s s' :
  safe_reach c0 s -> in_window w s -> step s HCheckL = Some s' -> handler s' = HIdle ->
  (forall i T, In (i, T) (queue s') -> clock s' < T) \/
  irq_sw s' = true \/ exists j, f_pc (futs s' j) = DPend.
Proof.
  intros Hr HW Hs Hh. destruct (InvAK_reach Hr) as [HA [HK HE]]. simpl in Hs.
  destruct (handler s) eqn:Eh; try discriminate. injection Hs as <-.
  rewrite (due_handler HW) in * by eauto. simpl in *.
  destruct (Z.leb_spec T (clock s)) as [Hle|Hgt]; [discriminate|].
  destruct HK as [[H|[H|H]]|(H1 & _)]; auto.
  - left. rewrite H. intros ? ? [].
  - left. intros i U Hin. unfold head_ge in H1. pose proof (A_sorted HA) as Hsrt.
    destruct (queue s) as [|[k V] q]; [destruct Hin|]. destruct Hin as [E|Hin].
    + inversion E; subst. lia.
    + inversion Hsrt as [|? ? _ Hall]; subst. rewrite Forall_forall in Hall. specialize (Hall _ Hin).
      unfold zle in Hall. simpl in Hall. lia.
Qed.

(** * Wake log: at most once per delay, never early *)
Definition log_ids (s : tq) : list nat := map (fun e => fst (fst e)) (log s).

Record InvL (s : tq) : Prop := {
  L_once : NoDup (log_ids s);
  L_popped : forall i, In i (log_ids s) -> f_popped (futs s i) = true;
  L_wake : forall i wk, handler s = HWake i wk -> ~ In i (log_ids s) /\ f_popped (futs s i) = true /\ f_T (futs s i) <= clock s;
  L_late : forall i wk t, In (i, wk, t) (log s) -> f_T (futs s i) <= t;
  L_all : forall i, f_popped (futs s i) = true -> In i (log_ids s) \/ exists wk, handler s = HWake i wk
}.

Lemma InvL_init c : InvL (tq_init c).
Proof. constructor; simpl; try discriminate; try tauto. constructor. Qed.

(** steps that neither pop, wake nor (re)create *)
Lemma InvL_frame s s' :
  log s' = log s -> handler s' = handler s \/ (forall i k, handler s' <> HWake i k) /\ (forall i k, handler s <> HWake i k) ->
  clock s <= clock s' ->
  (forall i, f_popped (futs s' i) = f_popped (futs s i) /\ (f_popped (futs s i) = true -> f_T (futs s' i) = f_T (futs s i))) ->
  InvL s -> InvL s'.
Proof.
  intros El Eh Ec Hf [H1 H2 H3 H4 H5]. unfold log_ids in *. constructor; unfold log_ids in *; rewrite ?El; auto.
  - intros i Hi. destruct (Hf i) as [-> _]. auto.
  - intros i k Hk. destruct Eh as [Eh|[Eh1 Eh2]]; [|now elim (Eh1 i k)].
    rewrite Eh in Hk. destruct (H3 i k Hk) as (K1 & K2 & K3). destruct (Hf i) as [E1 E2].
    rewrite E1, E2 by assumption. repeat split; auto. lia.
  - intros i k t Hin. destruct (Hf i) as [E1 E2]. rewrite E2; [eauto|]. apply H2.
    apply in_map_iff. exists (i, k, t). auto.
  - intros i. destruct (Hf i) as [-> _]. intros Hp. destruct (H5 i Hp) as [H|[k H]]; [auto|].
    destruct Eh as [Eh|[Eh1 Eh2]]; [right; exists k; congruence|now elim (Eh2 i k)].
Qed.

Lemma InvL_step s l s' : InvA s -> InvL s -> in_window w s -> step s l = Some s' -> InvL s'.
Proof.
  intros HA HL HW Hs.
  destruct l as [|k T|k wk|k|k|k|k| | | | | |c| |]; simpl in Hs.
  - injection Hs as <-. apply InvL_frame with (s := s); simpl; auto. lia.
  - destruct (f_pc (futs s k)) eqn:E; try discriminate. injection Hs as <-.
    assert (Hp : f_popped (futs s k) = false).
    { destruct (f_popped (futs s k)) eqn:Ep; [|reflexivity].
      pose proof (A_poplink HA k Ep) as Hl. rewrite (A_pre HA) in Hl; [discriminate|rewrite E; left; reflexivity]. }
    apply InvL_frame with (s := s); simpl; auto; [lia|]. intros i. updc; auto. rewrite Hp. split; [reflexivity|discriminate].
  - assert (Hs' : exists p, s' = set_pc s k p).
    { destruct (f_pc (futs s k)); try discriminate; destruct (due w (clock s) (f_T (futs s k))), (f_link (futs s k));
        injection Hs as <-; eauto. }
    destruct Hs' as [p ->].
    apply InvL_frame with (s := s); simpl; auto; [lia|]. intros i. updc; auto.
  - destruct (f_pc (futs s k)) as [| |wk| | | | |] eqn:E; try discriminate. injection Hs as <-.
    assert (Hp : f_popped (futs s k) = false).
    { destruct (f_popped (futs s k)) eqn:Ep; [|reflexivity].
      pose proof (A_poplink HA k Ep) as Hl. rewrite (A_pre HA) in Hl; [discriminate|rewrite E; right; right; eauto]. }
    apply InvL_frame with (s := s); simpl; auto; [lia|]. intros i. updc; auto.
  - destruct (f_pc (futs s k)) eqn:E; try discriminate. injection Hs as <-.
    apply InvL_frame with (s := s); simpl; auto; [lia|]. intros i. updc; auto.
  - assert (Hs' : exists p, s' = set_pc s k p).
    { destruct (f_pc (futs s k)); try discriminate; destruct (f_link (futs s k)), (f_popped (futs s k));
        injection Hs as <-; eauto. }
    destruct Hs' as [p ->].
    apply InvL_frame with (s := s); simpl; auto; [lia|]. intros i. updc; auto.
  - destruct (f_pc (futs s k)) eqn:E; try discriminate. injection Hs as <-.
    apply InvL_frame with (s := s); simpl; auto; [lia|]. intros i. updc; auto.
  - destruct (handler s) eqn:Eh; try discriminate. destruct (irq_sw s || irq_cmp s)%bool; [|discriminate].
    injection Hs as <-. apply InvL_frame with (s := s); simpl; auto; [right; split; congruence|lia].
  - destruct (handler s) eqn:Eh; try discriminate. injection Hs as <-.
    apply InvL_frame with (s := s); simpl; auto; [right; split; congruence|lia].
  - (* HPop *)
    destruct (handler s) eqn:Eh; try discriminate.
    destruct (queue s) as [|[k T] q] eqn:Eq.
    + injection Hs as <-. apply InvL_frame with (s := s); simpl; auto; [right; split; congruence|lia].
    + assert (Hin0 : In (k, T) (queue s)) by (rewrite Eq; now left).
      destruct (A_in HA _ _ Hin0) as (HT & Hl & Hp & Hpc).
      assert (Hd : due w (clock s) T = (T <=? clock s)).
      { rewrite <- HT. apply due_window; auto; intros E; rewrite E in Hpc; destruct Hpc as [H|[H|[H|H]]]; discriminate. }
      rewrite Hd in Hs. destruct (Z.leb_spec T (clock s)) as [Hle|Hgt]; injection Hs as <-.
      * destruct HL as [H1 H2 H3 H4 H5]. constructor; unfold log_ids in *; simpl; auto.
        -- intros i Hi. updc; auto.
        -- intros i k' E. injection E as -> <-. rewrite upd_same. simpl. repeat split; [|lia].
           intros Hin. apply H2 in Hin. congruence.
        -- intros i k' t Hin. unfold upd. destruct (Nat.eqb_spec i k) as [->|]; simpl; eauto.
        -- intros i. unfold upd. destruct (Nat.eqb_spec i k) as [->|]; simpl; [eauto|].
           intros Hi. destruct (H5 i Hi) as [?|[k' E]]; [auto|congruence].
      * apply InvL_frame with (s := s); simpl; auto; [right; split; congruence|lia|]. intros i. updc; auto.
  - (* HWake *)
    destruct (handler s) as [| | |i wk| | | |] eqn:Eh; try discriminate. injection Hs as <-.
    destruct HL as [H1 H2 H3 H4 H5]. destruct (H3 i wk Eh) as (K1 & K2 & K3).
    constructor; unfold log_ids in *; simpl; rewrite ?map_app; simpl.
    + apply NoDup_snoc; auto.
    + intros j Hj. apply in_app_iff in Hj as [Hj|[<-|[]]]; auto.
    + intros j k E. discriminate.
    + intros j k t Hin. apply in_app_iff in Hin as [Hin|[E|[]]]; [eauto|]. inversion E; subst. exact K3.
    + intros j Hj. left. apply in_app_iff. destruct (H5 j Hj) as [H|[k E]]; [auto|]. rewrite Eh in E. inversion E; subst. right. now left.
  - destruct (handler s) eqn:Eh; try discriminate. injection Hs as <-.
    apply InvL_frame with (s := s); simpl; auto; [right; split; congruence|lia].
  - destruct (handler s) eqn:Eh; try discriminate. destruct (arm_ok slack (clock s) T c); [|discriminate]. injection Hs as <-.
    apply InvL_frame with (s := s); simpl; auto; [right; split; congruence|lia].
  - destruct (handler s) eqn:Eh; try discriminate. injection Hs as <-.
    apply InvL_frame with (s := s); simpl; auto; [right; split; [|congruence]|lia].
    intros i k. destruct (due w (clock s) T); discriminate.
  - destruct (handler s) eqn:Eh; try discriminate. injection Hs as <-.
    apply InvL_frame with (s := s); simpl; auto; [right; split; congruence|lia].
Qed.

Lemma InvL_reach c0 s : safe_reach c0 s -> InvL s.
Proof.
  intros Hr. assert (H : InvA s /\ InvL s); [|apply H].
  revert Hr. apply greach_inv with (P := fun s => InvA s /\ InvL s).
  - split; [apply InvA_init|apply InvL_init].
  - intros s1 l s2 [HA HL] HG Hs. split; [eapply InvA_step; eauto|eapply InvL_step; eauto].
Qed.

Lemma woken_once_not_early c0 s :
  safe_reach c0 s ->
  NoDup (map (fun e => fst (fst e)) (log s)) /\
  (forall i wk t, In (i, wk, t) (log s) -> f_T (futs s i) <= t).
Proof. intros Hr. pose proof (InvL_reach Hr) as HL. split; [apply (L_once HL)|apply (L_late HL)]. Qed.

Lemma popped_woken c0 s i :
  safe_reach c0 s -> f_popped (futs s i) = true ->
  In i (map (fun e => fst (fst e)) (log s)) \/ exists wk, handler s = HWake i wk.
Proof. intros Hr. apply (L_all (InvL_reach Hr)). Qed.

(** * The handler alone terminates and serves everything that is due *)
Definition is_handler (l : tlabel) : Prop :=
  match l with HClearL | HPop | HWakeL | HEnableL | HSetL _ | HCheckL | HDisableL => True | _ => False end.

Lemma in_window_same s s' :
  in_window w s -> clock s' = clock s ->
  (forall i, f_T (futs s' i) = f_T (futs s i) /\ f_pc (futs s' i) = f_pc (futs s i)) ->
  (forall T, handler s' = HEnable T \/ handler s' = HSet T \/ handler s' = HCheck T ->
             In T (map snd (queue s)) \/ handler s = HEnable T \/ handler s = HSet T \/ handler s = HCheck T) ->
  InvA s ->
  in_window w s'.
Proof.
  intros (lo & hi & Hb & Hc & Hf & Hh) Ec Hfut HH HA. exists lo, hi. rewrite Ec.
  split; [exact Hb|]. split; [exact Hc|]. split.
  - intros i. destruct (Hfut i) as [-> ->]. apply Hf.
  - intros T HT. destruct (HH T HT) as [Hin|Hin]; [|auto].
    apply in_map_iff in Hin as [[i U] [<- Hin]]. simpl.
    apply (A_in HA) in Hin as (<- & _ & _ & Hpc). apply Hf; destruct Hpc as [H|[H|[H|H]]]; rewrite H; discriminate.
Qed.

Lemma handler_serves c0 n : forall s,
  length (queue s) = n ->
  safe_reach c0 s -> in_window w s -> handler s = HLoop ->
  exists ls s', run step s ls = Some s' /\ Forall is_handler ls /\ handler s' = HIdle /\
    clock s' = clock s /\
    (forall i T, In (i, T) (queue s') -> clock s < T) /\
    (forall i T, In (i, T) (queue s) -> T <= clock s -> In (i, f_waker (futs s i), clock s) (log s')).
Proof.
  induction n as [|n IH]; intros s Hn Hr HW Hh; pose proof (InvA_reach Hr) as HA.
  - (* empty queue *)
    destruct (queue s) as [|] eqn:Eq; [|discriminate].
    exists [HPop; HDisableL]. cbn [run]. simpl. rewrite Hh, Eq. simpl.
    eexists; split; [reflexivity|]. simpl. repeat split; auto.
    + repeat constructor.
    + rewrite Eq. intros ? ? [].
    + intros ? ? [].
  - destruct (queue s) as [|[i T] q] eqn:Eq; [discriminate|].
    assert (Hin0 : In (i, T) (queue s)) by (rewrite Eq; now left).
    destruct (A_in HA _ _ Hin0) as (HT & Hl & Hp & Hpc).
    assert (Hd : due w (clock s) T = (T <=? clock s)).
    { rewrite <- HT. apply due_window; auto; intros E; rewrite E in Hpc; destruct Hpc as [H|[H|[H|H]]]; discriminate. }
    destruct (Z.leb_spec T (clock s)) as [Hle|Hgt].
    + (* pop it *)
      assert (S1 : exists s1, step s HPop = Some s1 /\ handler s1 = HWake i (f_waker (futs s i)) /\ queue s1 = q /\
          clock s1 = clock s /\ log s1 = log s /\
          forall j, f_T (futs s1 j) = f_T (futs s j) /\ f_pc (futs s1 j) = f_pc (futs s j) /\ f_waker (futs s1 j) = f_waker (futs s j)).
      { simpl. rewrite Hh, Eq, Hd. eexists; split; [reflexivity|]. simpl. repeat split; auto; unfold upd; destruct (Nat.eqb_spec j i); subst; auto. }
      destruct S1 as (s1 & E1 & Eh1 & Eq1 & Ec1 & El1 & Ef1).
      assert (S2 : exists s2, step s1 HWakeL = Some s2 /\ handler s2 = HLoop /\ queue s2 = q /\ clock s2 = clock s /\
          log s2 = log s ++ [(i, f_waker (futs s i), clock s)] /\ futs s2 = futs s1).
      { simpl. rewrite Eh1. eexists; split; [reflexivity|]. simpl. rewrite El1, Ec1. auto 6. }
      destruct S2 as (s2 & E2 & Eh2 & Eq2 & Ec2 & El2 & Ef2).
      assert (HW1 : in_window w s1).
      { eapply in_window_same; eauto. 1: intros j; destruct (Ef1 j) as (?&?&?); auto.
        intros U. rewrite Eh1. intros [H|[H|H]]; discriminate. }
      assert (HA1 : InvA s1) by (eapply InvA_step; eauto).
      assert (HW2 : in_window w s2).
      { eapply in_window_same; [exact HW1| | | |exact HA1]. 1: congruence. 1: intros j; rewrite Ef2; auto.
        intros U. rewrite Eh2. intros [H|[H|H]]; discriminate. }
      assert (Hr2 : safe_reach c0 s2).
      { destruct Hr as [ls [Hg Hrun]]. exists (ls ++ [HPop; HWakeL]). split.
        - clear - Hg Hrun HW HW1 E1 E2. revert Hg Hrun. generalize (tq_init c0).
          induction ls as [|l ls IHl]; intros t0 Hg Hrun; cbn [app guarded run] in *.
          + injection Hrun as ->. rewrite E1, E2. auto.
          + destruct Hg as [HG Hg]. split; [exact HG|]. destruct (step t0 l); [|discriminate]. apply IHl; auto.
        - rewrite run_app, Hrun. cbn [run]. now rewrite E1, E2. }
      destruct (IH s2) as (ls & s' & Hrun & Hall & Hi & Hck & Hq & Hlog); auto.
      { simpl in Hn. rewrite Eq2. lia. }
      exists (HPop :: HWakeL :: ls), s'. cbn [run]. rewrite E1, E2. repeat split; auto.
      * constructor; [exact I|]. constructor; [exact I|exact Hall].
      * congruence.
      * intros j U Hin. specialize (Hq j U Hin). lia.
      * intros j U [E|Hin] HU.
        -- inversion E; subst.
           assert (Hmono : forall ls a b, run step a ls = Some b -> forall e, In e (log a) -> In e (log b)).
           { clear. induction ls as [|l ls IHl]; cbn [run]; intros a b Hrun e He; [now injection Hrun as <-|].
             destruct (step a l) as [a'|] eqn:Es; [|discriminate]. eapply IHl; [exact Hrun|].
             clear - Es He. destruct l; simpl in Es;
               repeat match type of Es with
               | context [match ?x with _ => _ end] => destruct x; try discriminate
               end; injection Es as <-; simpl; auto; apply in_app_iff; auto. }
           apply (Hmono ls s2 s' Hrun). rewrite El2. apply in_app_iff. right. now left.
        -- specialize (Hlog j U). rewrite Eq2, Ec2, Ef2 in Hlog. destruct (Ef1 j) as (_ & _ & Ew). rewrite Ew in Hlog. auto.
    + (* head in the future: arm and leave *)
      exists [HPop; HEnableL; HSetL (Some T); HCheckL].
      assert (E0 : (clock s <? T) = true) by lia.
      assert (E00 : (T <=? T + slack) = true) by lia.
      cbn [run]. simpl. rewrite Hh, Eq, Hd. simpl. unfold arm_ok. simpl. rewrite E0, E00. simpl. rewrite Hd.
      eexists; split; [reflexivity|]. simpl. repeat split; auto.
      * repeat constructor.
      * rewrite Eq. intros j U [E|Hin]; [inversion E; subst; lia|].
        pose proof (A_sorted HA) as Hsrt. rewrite Eq in Hsrt. inversion Hsrt as [|? ? _ Hall]; subst.
        rewrite Forall_forall in Hall. specialize (Hall _ Hin). unfold zle in Hall. simpl in Hall. lia.
      * intros j U Hin HU. exfalso.
        destruct Hin as [E|Hin]; [inversion E; subst; lia|].
        pose proof (A_sorted HA) as Hsrt. rewrite Eq in Hsrt. inversion Hsrt as [|? ? _ Hall]; subst.
        rewrite Forall_forall in Hall. specialize (Hall _ Hin). unfold zle in Hall. simpl in Hall. lia.
Qed.

End Proofs.

(** Timeout *)
Lemma timeout_ok {A} w (v : A) now dl : timeout_poll w (Some v) now dl = TOk v.
Proof. reflexivity. Qed.

Lemma timeout_err {A} w (fr : option A) n1 T :
  1 <= w -> - 2 ^ (w - 1) <= n1 - T < 2 ^ (w - 1) ->
  timeout_poll w fr (n1 mod 2 ^ w) (T mod 2 ^ w) = TErr <-> fr = None /\ T <= n1.
Proof.
  intros Hw Hd. unfold timeout_poll, delay_ready. rewrite is_at_least_window by assumption.
  destruct fr as [a|]; [split; [discriminate|intros [H _]; discriminate]|].
  destruct (Z.leb_spec T n1); split; try discriminate; auto; intros [_ ?]; lia.
Qed.

Lemma timeout_ok_iff {A} w (fr : option A) v now dl : timeout_poll w fr now dl = TOk v <-> fr = Some v.
Proof.
  unfold timeout_poll. destruct fr as [u|]; [split; intros H; congruence|].
  destruct (delay_ready w now dl); split; discriminate.
Qed.

Lemma timeout_after_not_early {A} w P r0 r1 d (fr : option A) :
  1 <= w -> 0 < P -> r0 <= r1 -> 0 <= d -> d + 1 <= 2 ^ (w - 1) ->
  timeout_poll w fr ((r1 / P) mod 2 ^ w) (delay_deadline w ((r0 / P) mod 2 ^ w) d) = TErr ->
  fr = None /\ d * P <= r1 - r0.
Proof.
  intros Hw HP Hr Hd Hdw H. unfold timeout_poll in H. destruct fr as [u|]; [discriminate|].
  split; [reflexivity|]. destruct (delay_ready _ _ _) eqn:E; [|discriminate].
  eapply delay_not_early; eauto.
Qed.

Lemma drop_leaves_others w slack s s' i :
  (tq_step w slack s (Drop i) = Some s' \/ tq_step w slack s (Delete i) = Some s') ->
  (forall j T, j <> i -> In (j, T) (queue s') <-> In (j, T) (queue s)) /\
  (exists keep, queue s' = filter keep (queue s)) /\
  (forall j, j <> i -> futs s' j = futs s j).
Proof.
  assert (Hf : forall (l : list (nat * Z)), filter (fun _ => true) l = l).
  { induction l as [|x l IH]; simpl; congruence. }
  intros [H|H]; simpl in H.
  - assert (E : queue s' = queue s /\ forall j, j <> i -> futs s' j = futs s j).
    { destruct (f_pc (futs s i)); try discriminate;
      destruct (f_link (futs s i)), (f_popped (futs s i)); simpl in H; injection H as <-; simpl;
      (split; [reflexivity|]); intros j Hj; now rewrite upd_other. }
    destruct E as [-> E]. split; [tauto|]. split; [exists (fun _ => true); now rewrite Hf|exact E].
  - destruct (f_pc (futs s i)); try discriminate. injection H as <-. simpl. split; [|split].
    + intros j T Hj. unfold drop_addr. rewrite filter_In. simpl.
      destruct (Nat.eqb_spec j i); [contradiction|]. simpl. tauto.
    + eexists. reflexivity.
    + intros j Hj. now rewrite upd_other.
Qed.

(** A concrete run: two delays (deadlines 12 and 11 at clock 10), inserted, interrupt taken, compare armed
    for 11, clock reaches 11, handler pops and wakes the earlier one. *)
Definition demo_schedule : list tlabel :=
  [Create 0 12; Create 1 11; Poll 0 5; Insert 0; Pend 0; Poll 1 6; Insert 1; Pend 1;
   IrqEnter; HClearL; HPop; HEnableL; HSetL (Some 11); HCheckL; Tick; IrqEnter; HClearL].

Lemma demo_window s :
  (clock s = 10 \/ clock s = 11) ->
  (forall i, f_pc (futs s i) <> DNone -> 10 <= f_T (futs s i) <= 12) ->
  (forall T, handler s = HEnable T \/ handler s = HSet T \/ handler s = HCheck T -> 10 <= T <= 12) ->
  in_window 32 s.
Proof.
  intros Hc Hf Hh. exists 10, 12. split; [reflexivity|]. split; [lia|]. split.
  - intros i H _. now apply Hf.
  - exact Hh.
Qed.

Lemma demo_reach : exists s, safe_reach 32 0 10 s /\ in_window 32 s /\
  handler s = HLoop /\ queue s = [(1%nat, 11); (0%nat, 12)] /\ clock s = 11 /\
  exists s', tq_step 32 0 s HPop = Some s' /\ handler s' = HWake 1 6.
Proof.
  destruct (run (tq_step 32 0) (tq_init 10) demo_schedule) as [s|] eqn:E; [|vm_compute in E; discriminate].
  exists s. 
  assert (W : forall s, (clock s = 10 \/ clock s = 11) ->
    ((f_pc (futs s 0%nat) = DNone \/ f_T (futs s 0%nat) = 12) /\ (f_pc (futs s 1%nat) = DNone \/ f_T (futs s 1%nat) = 11) /\
     forall i, f_pc (futs s (S (S i))) = DNone) ->
    (forall T, handler s = HEnable T \/ handler s = HSet T \/ handler s = HCheck T -> 10 <= T <= 12) -> in_window 32 s).
  { intros s0 H1 (H2 & H3 & H4) H5. apply demo_window; auto. intros [|[|i]] Hi.
    - destruct H2; [contradiction|lia].
    - destruct H3; [contradiction|lia].
    - rewrite H4 in Hi. contradiction. }
  assert (G : guarded (tq_step 32 0) (@guard 32) (tq_init 10) demo_schedule /\ in_window 32 s).
  { Ltac wind W := apply W; [vm_compute; auto | vm_compute; repeat split; auto | simpl; intros T [H|[H|H]]; inversion H; lia].
    unfold demo_schedule.
    split.
    - repeat (split; [unfold guard; wind W|]; match goal with |- context [tq_step ?w ?k ?s ?l] =>
        let r := eval vm_compute in (tq_step w k s l) in change (tq_step w k s l) with r end; cbv iota beta).
      exact I.
    - vm_compute in E. injection E as <-. wind W. }
  destruct G as [G HW]. split; [exists demo_schedule; split; assumption|]. split; [exact HW|].
  vm_compute in E. injection E as <-. repeat split. eexists. repeat split.
Qed.

(** Delay::poll never refreshes the waker stored in its link (lines 224-248): polled with waker 5, then
    with waker 6, the expiry wakes 5. *)
Lemma stale_waker :
  exists s, run (tq_step 32 0) (tq_init 10)
    [Create 0 11; Poll 0 5; Insert 0; Pend 0; Poll 0 6; Tick; IrqEnter; HClearL; HPop; HWakeL] = Some s /\
    log s = [(0%nat, 5%nat, 11)].
Proof. eexists. split; [vm_compute; reflexivity|reflexivity]. Qed.

(** ** With nothing queued the handler turns the timer off, and it stays off until the next insertion. *)
Section Quiet.
Context (w slack : Z).
Definition no_insert (l : tlabel) : Prop := match l with Insert _ => False | _ => True end.
Definition quiet (s : tq) : Prop :=
  queue s = [] /\ (handler s = HClear \/ handler s = HLoop \/ handler s = HDisable \/ (handler s = HIdle /\ enabled s = false)).
Lemma drop_addr_nil i : drop_addr i (@nil (nat * Z)) = [].
Proof. reflexivity. Qed.
Lemma quiet_step s l s' : quiet s -> no_insert l -> tq_step w slack s l = Some s' -> quiet s'.
Proof.
  intros [Q H] NI E. unfold quiet.
  destruct l; simpl in NI; try contradiction; simpl in E;
    repeat match goal with
    | E : context [match ?x with _ => _ end] |- _ => let F := fresh in destruct x eqn:F; try discriminate
    end; injection E as <-; unfold set_pc, set_fut, set_queue, set_handler; simpl; rewrite ?Q; simpl;
    split; auto;
    destruct H as [H | [H | [H | [H H']]]]; rewrite ?H in *; try congruence; auto 6.
Qed.
Lemma quiet_run ls : forall s s', quiet s -> Forall no_insert ls -> run (tq_step w slack) s ls = Some s' -> quiet s'.
Proof.
  induction ls as [|l ls IH]; simpl; intros s s' Q F R.
  - now injection R as <-.
  - destruct (tq_step w slack s l) as [s1|] eqn:E; [|discriminate]. inversion F; subst. eapply IH; [|eassumption|exact R]. eapply quiet_step; eauto.
Qed.
Lemma off_when_empty s ls s' :
  handler s = HClear -> queue s = [] -> Forall no_insert ls -> run (tq_step w slack) s ls = Some s' -> handler s' = HIdle ->
  enabled s' = false /\ forall s'', tq_step w slack s' Tick = Some s'' -> irq_cmp s'' = irq_cmp s'.
Proof.
  intros H Q F R I. assert (P : quiet s') by (eapply quiet_run; eauto; split; auto).
  destruct P as [_ [P | [P | [P | [_ P]]]]]; try congruence. split; [exact P|]. intros s'' E. simpl in E. injection E as <-. simpl. rewrite P.
  destruct (armed s'); simpl; apply orb_false_r.
Qed.
End Quiet.
