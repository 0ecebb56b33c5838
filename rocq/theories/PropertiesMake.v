(** C84: [make_channel!] gives out at most one pair of ends per use, and the channel behind it is never split
    twice, so everything proved of freshly split channels (C22-C29, C83) holds of it. *)
From Verif Require Import Base LTS WakerRegModel ChannelModel MakeChannel.
Set Implicit Arguments.

Section M.
Context {V : Type} (N : nat).
Implicit Types (s : msite V).

Lemma fresh_only_split l (c : chan V) : step N chan_new l = Some c -> l = LSplit.
Proof. destruct l; simpl; intros H; try discriminate; reflexivity. Qed.

Definition MInv s : Prop :=
  (m_check s = 0 /\ m_ch s = chan_new /\ forall i, m_pc s i = MOut) \/
  (m_check s = 1 /\ exists i, (forall k, k <> i -> m_pc s k = MOut \/ m_pc s k = MPanic) /\
     (m_pc s i = MIn /\ m_ch s = chan_new \/ m_pc s i = MGot /\ creach N (m_ch s))).

Lemma MInv_reach s : mkreach N s -> MInv s.
Proof.
  revert s. apply reach_inv.
  - left. auto.
  - intros s l s' HI Hs. destruct l as [i|i|l]; simpl in Hs.
    + destruct (m_pc s i) eqn:Ei; try discriminate. destruct HI as [(H1 & H2 & H3)|(H1 & k & H2 & H3)]; rewrite H1 in Hs; simpl in Hs; injection Hs as <-.
      * right. simpl. split; [auto|]. exists i. rewrite upd_same. split; [|auto]. intros k Hk. rewrite upd_other; auto.
      * right. simpl. split; [auto|]. exists k. assert (Hne : i <> k) by (intros ->; destruct H3 as [[? _]|[? _]]; congruence). split.
        -- intros k' Hk. unfold upd. destruct (Nat.eqb_spec k' i); auto.
        -- rewrite upd_other; auto.
    + destruct (m_pc s i) eqn:Ei; try discriminate. injection Hs as <-. destruct HI as [(H1 & H2 & H3)|(H1 & k & H2 & H3)]; [congruence|].
      right. simpl. split; [auto|]. destruct (Nat.eq_dec i k) as [->|Hne]; [|destruct (H2 i Hne); congruence].
      exists k. rewrite upd_same. split; [intros k' Hk; rewrite upd_other; auto|]. right. split; [reflexivity|].
      destruct H3 as [[_ ->]|[? _]]; [|congruence]. exists [LSplit]. reflexivity.
    + assert (Hs' : l <> LSplit /\ exists c, step N (m_ch s) l = Some c /\ s' = mkM (m_check s) (m_pc s) c).
      { assert (Hl : l <> LSplit) by (intros ->; discriminate). split; [exact Hl|].
        assert (Hs1 : match step N (m_ch s) l with Some c => Some (mkM (m_check s) (m_pc s) c) | None => None end = Some s')
          by (destruct l; [congruence| | | | | | | | | | | |]; exact Hs).
        destruct (step N (m_ch s) l) as [c|]; [|discriminate]. injection Hs1 as <-. eauto. }
      destruct Hs' as (Hne & c & Hc & ->). destruct HI as [(H1 & H2 & H3)|(H1 & k & H2 & H3)].
      * rewrite H2 in Hc. now apply fresh_only_split in Hc.
      * right. simpl. split; [auto|]. exists k. split; [auto|]. destruct H3 as [[H3 H4]|[H3 H4]].
        -- rewrite H4 in Hc. now apply fresh_only_split in Hc.
        -- right. split; [auto|]. eapply reach_step; eauto.
Qed.

(** At most one call ever gets the pair of ends or is about to. *)
Theorem C84_one_pair :
  forall s i k, mkreach N s -> m_pc s i = MIn \/ m_pc s i = MGot -> m_pc s k = MIn \/ m_pc s k = MGot -> i = k.
Proof.
  intros s i k Hr Hi Hk. destruct (MInv_reach Hr) as [(_ & _ & H)|(_ & j & H & _)].
  - rewrite H in Hi. destruct Hi; discriminate.
  - assert (X : forall x, m_pc s x = MIn \/ m_pc s x = MGot -> x = j).
    { intros x Hx. destruct (Nat.eq_dec x j) as [|Hne]; [auto|]. destruct (H x Hne), Hx; congruence. }
    rewrite (X i Hi), (X k Hk). reflexivity.
Qed.

(** A call panics exactly if another one came before it. *)
Theorem C84_panics_iff_second :
  forall s i s', mkreach N s -> mstep N s (MCheck i) = Some s' ->
  (m_pc s' i = MPanic <-> exists k, k <> i /\ (m_pc s k = MIn \/ m_pc s k = MGot)) /\ (m_pc s' i = MIn \/ m_pc s' i = MPanic).
Proof.
  intros s i s' Hr Hs. simpl in Hs. destruct (m_pc s i) eqn:Ei; try discriminate.
  destruct (MInv_reach Hr) as [(H1 & _ & H)|(H1 & j & H & H3)]; rewrite H1 in Hs; simpl in Hs; injection Hs as <-; simpl; rewrite upd_same.
  - split; [|auto]. split; [discriminate|]. intros (k & _ & Hk). rewrite H in Hk. destruct Hk; discriminate.
  - split; [|auto]. split; [|auto]. intros _. exists j. split; [intros ->; destruct H3 as [[? _]|[? _]]; congruence|]. destruct H3 as [[? _]|[? _]]; auto.
Qed.

(** The channel behind the macro is always in a state that a channel split once can reach: it is never split
    again under its users (what C30 shows to go wrong cannot happen here). *)
Theorem C84_split_once :
  forall s, mkreach N s -> creach N (m_ch s) /\ (m_ch s <> chan_new -> exists i, m_pc s i = MGot).
Proof.
  intros s Hr. destruct (MInv_reach Hr) as [(_ & H & _)|(_ & j & _ & [[_ H]|[H1 H2]])].
  - rewrite H. split; [exists []; reflexivity|]. congruence.
  - rewrite H. split; [exists []; reflexivity|]. congruence.
  - split; [exact H2|]. eauto.
Qed.
End M.

(** Two tasks execute the same [make_channel!]; the second enters while the first is about to split. *)
Theorem C84_case : exists s : msite nat, run (mstep 1) (@m0 nat) [MCheck 4; MCheck 7; MSplit 4; MUse (LTry 0 5); MUse (LStep 0)] = Some s /\
  m_pc s 4 = MGot /\ m_pc s 7 = MPanic /\ m_pc s 9 = MOut /\ h_pc (hs (m_ch s) 0) = TPop 5.
Proof. eexists. split; [vm_compute; reflexivity|]. vm_compute. auto. Qed.

Print Assumptions C84_one_pair.
Print Assumptions C84_panics_iff_second.
Print Assumptions C84_split_once.
Print Assumptions C84_case.
