(** Last layer of lemmas for the channel properties: own-step progress, cancellation, receiver drop. *)
From Verif Require Import Base LTS WakerRegModel ChannelModel ChannelSpec ChannelInv ChannelOwn ChannelProofs ChannelTrace ChannelMore.
From Coq Require Import Sorting.Sorted Permutation.
Set Implicit Arguments.

Section F.
Context {V : Type} (N : nat).
Notation chan := (chan V).
Notation step := (@step V N).

Lemma own_step_progress (s : chan) j : steps_left (h_pc (hs s j)) > 0 ->
  exists s', step s (LStep j) = Some s' /\ steps_left (h_pc (hs s' j)) < steps_left (h_pc (hs s j)).
Proof.
  intros H. simpl. destruct (h_pc (hs s j)) as [| |v|v|v|v|d v|d v|x v|x v|v| |] eqn:E; simpl in H; try lia.
  - destruct (rdropped s); (eexists; split; [reflexivity|]); simpl; rewrite upd_same; simpl; lia.
  - destruct (freeq s); (eexists; split; [reflexivity|]); simpl; rewrite upd_same; simpl; lia.
  - eexists; split; [reflexivity|]. simpl. rewrite upd_same. simpl. lia.
  - fold (drop2 N s j d v). destruct d; (eexists; split; [reflexivity|]); simpl; rewrite upd_same; simpl; lia.
  - eexists; split; [reflexivity|]. simpl. rewrite upd_same. simpl. lia.
  - eexists; split; [reflexivity|]. simpl. rewrite upd_same. simpl. lia.
  - eexists; split; [reflexivity|]. simpl. rewrite upd_same. simpl. lia.
  - eexists; split; [reflexivity|]. simpl. rewrite upd_same. simpl. lia.
Qed.

Lemma others_keep_pc s l s' j : step s l = Some s' -> owner l <> Some j -> h_pc (hs s' j) = h_pc (hs s j).
Proof.
  intros Hs Ho.
  assert (G : forall i p, pcs_upd s s' i p -> i <> j -> h_pc (hs s' j) = h_pc (hs s j)).
  { intros i p Hp Hne. rewrite Hp. destruct (Nat.eqb_spec j i); [congruence|reflexivity]. }
  destruct l as [|i k|i v|i v|i w|i|i|i| |w| | |]; simpl in Hs, Ho;
    try (assert (Hne : i <> j) by congruence).
  - sc Hs. simpl. rewrite upd_other; [reflexivity|congruence].
  - sc Hs. simpl. rewrite upd_other; [reflexivity|congruence].
  - sc Hs; [|reflexivity]. eapply G; [apply pcs_pre|exact Hne].
  - sc Hs. eapply G; [apply pcs_pre|exact Hne].
  - sc Hs; (rewrite poll_pc_other; [reflexivity|congruence]).
  - destruct (h_pc (hs s i)) as [| |v|v|v|v|d v|d v|x v|x v|v| |] eqn:E; try discriminate.
    + sc Hs; (eapply G; [try apply pcs_emit; apply (pcs_set_pc s i)|exact Hne]).
    + sc Hs; (eapply G; [try apply pcs_emit; apply (pcs_set_pc s i)|exact Hne]).
    + sc Hs. eapply G; [apply (pcs_set_h s i)|exact Hne].
    + fold (drop2 N s i d v) in Hs. sc Hs; (eapply G; [try apply pcs_emit; apply drop2_pcs|exact Hne]).
    + sc Hs. eapply G; [apply (pcs_set_pc s i)|exact Hne].
    + sc Hs. eapply G; [apply (pcs_set_pc s i)|exact Hne].
    + sc Hs. eapply G; [apply pcs_emit, wake_pcs|exact Hne].
    + sc Hs. eapply G; [apply wake_pcs|exact Hne].
  - sc Hs; (eapply G; [try apply pcs_emit; apply (pcs_set_pc s i)|exact Hne]).
  - sc Hs. eapply G; [apply (pcs_set_pc s i)|exact Hne].
  - sc Hs. reflexivity.
  - sc Hs; reflexivity.
  - destruct (recv s) as [| |w|w|w x|w x v|w|w| |x| |] eqn:Er; try discriminate; try (sc Hs; reflexivity).
    + sc Hs. simpl. destruct (reg_same s w) as (_ & -> & _). reflexivity.
    + sc Hs. apply (return_pc N s x j).
    + sc Hs; [reflexivity|]. simpl. unfold upd. destruct (Nat.eqb_spec j n) as [->|]; reflexivity.
  - sc Hs. reflexivity.
  - sc Hs. reflexivity.
Qed.

(** * Cancellation *)
Lemma idle_clean (s : chan) j : creach N s -> h_pc (hs s j) = HIdle -> ~ In j (wq s) /\ hheld (hs s j) = None.
Proof.
  intros Hr Hp. pose proof (A_L (InvAll_reach Hr)) as HL. pose proof (L_h HL j) as Hk. unfold hok in Hk. rewrite Hp in Hk.
  destruct Hk as [H1 H2]. split; [rewrite (L_in HL); congruence|]. unfold hheld. now rewrite Hp.
Qed.

Lemma drop_returns_slot (s : chan) j d v x : creach N s -> h_pc (hs s j) = SDrop2 d v -> d <> DOk x ->
  hheld (hs s j) = Some x ->
  exists s', step s (LStep j) = Some s' /\ h_pc (hs s' j) = HIdle /\ hheld (hs s' j) = None /\
    match wq s with
    | [] => located s' x AtFree
    | k :: _ => located s' x (AtSender k) /\ h_woken (hs s' k) = true /\ emits s s' (EHand k x)
    end.
Proof.
  intros Hr Hp Hd Hh. pose proof (A_L (InvAll_reach Hr)) as HL. pose proof (L_h HL j) as Hk. unfold hok in Hk. rewrite Hp in Hk.
  unfold hheld in Hh. rewrite Hp in Hh.
  assert (Hs : h_slot (hs s j) = Some x) by (destruct d; [congruence|exact Hh|exact Hh]).
  assert (Hl : h_link (hs s j) = LNone) by (destruct d; [apply Hk|exact Hk|exact Hk]).
  assert (Hdo : forall y, d <> DOk y) by (intros y ->; destruct Hk; congruence).
  assert (Hnj : ~ In j (wq s)) by (rewrite (L_in HL); congruence).
  simpl. rewrite Hp. fold (drop2 N s j d v).
  assert (Hx : exists e, match d with
    | DOk y => Some (set_pc (drop2 N s j d v) j (FWrite y v))
    | DErr => Some (finish (drop2 N s j d v) j (ENoRecv j v))
    | DCancel => Some (finish (drop2 N s j d v) j (ECancel j v)) end = Some (finish (drop2 N s j d v) j e)).
  { destruct d; [exfalso; eapply Hdo; eauto| |]; eauto. }
  destruct Hx as (e & ->). eexists; split; [reflexivity|]. unfold finish. simpl.
  assert (Hz : h_slot (hs (drop2 N s j d v) j) = None).
  { unfold drop2. rewrite Hs. rewrite return_other by exact Hnj. simpl. now rewrite upd_same. }
  split; [now rewrite upd_same|]. split; [unfold hheld; rewrite upd_same; exact Hz|].
  unfold drop2. rewrite Hs. unfold return_slot. simpl. destruct (wq s) as [|k q] eqn:Eq; simpl.
  - apply in_app_iff. right. now left.
  - assert (Hkj : k <> j) by (intros ->; apply Hnj; now left).
    assert (Hkl : h_link (hs s k) = LQueued) by (apply (L_in HL); rewrite Eq; now left).
    rewrite upd_other by auto. rewrite upd_same. rewrite (upd_other _ _ Hkj). simpl. split; [|split].
    + unfold hheld. simpl. pose proof (L_h HL k) as Hkk. unfold hok in Hkk.
      destruct (h_pc (hs s k)) as [| |v'|v'|v'|v'|d' v'|d' v'|y v'|y v'|v'| |]; try reflexivity; try (destruct Hkk; congruence);
        destruct d'; try reflexivity; destruct Hkk; congruence.
    + reflexivity.
    + exists [EHand k x; e]. simpl. split; [now rewrite <- app_assoc|now left].
Qed.

(** * Receiver drop *)
Lemma waiting_released (s : chan) j v w : creach N s -> rdropped s = true -> h_pc (hs s j) = SWait v ->
  exists s', run step s [LPoll j w; LStep j; LStep j] = Some s' /\ h_pc (hs s' j) = HIdle /\ emits s s' (ENoRecv j v).
Proof.
  intros Hr Hd Hp. simpl. rewrite Hp. unfold send_poll. rewrite Hd. simpl. rewrite upd_same. simpl.
  rewrite upd_same. simpl.
  match goal with |- context [finish ?x j _] => set (t := x) end.
  eexists; split; [reflexivity|]. unfold finish. simpl. rewrite upd_same. split; [reflexivity|].
  assert (X : exists evs, log t = log s ++ evs).
  { subst t. match goal with |- context [match ?h with Some _ => _ | None => _ end] => destruct h end.
    - rewrite return_log. simpl. eauto.
    - simpl. exists []. now rewrite app_nil_r. }
  destruct X as (evs & X). exists (evs ++ [ENoRecv j v]). simpl. rewrite X. split; [now rewrite app_assoc|].
  apply in_app_iff. right. now left.
Qed.

Lemma dead_released (s : chan) j v : creach N s -> recv s = RDead -> h_pc (hs s j) = SWait v ->
  ~ In j (wq s) /\ h_woken (hs s j) = true.
Proof.
  intros Hr Hd Hp. pose proof (InvX_reach Hr) as [[HL _ _ _] _ _ _ HS]. pose proof (InvW_reach Hr Hd) as Hw.
  split; [rewrite Hw; simpl; tauto|]. pose proof (L_h HL j) as Hk. unfold hok in Hk. rewrite Hp in Hk. destruct Hk as [Hk _].
  apply (S_woken HS). destruct (h_link (hs s j)) eqn:E; [congruence| |reflexivity].
  apply (L_in HL) in E. rewrite Hw in E. destruct E.
Qed.

Lemma map_Some_inj (a b : list V) : map Some a = map Some b -> a = b.
Proof.
  revert b. induction a as [|x a IH]; intros [|y b]; simpl; intros E; try discriminate; [reflexivity|].
  injection E as -> E. f_equal. auto.
Qed.

(** with no interference the drop empties the channel and the wait queue *)
Lemma drop_drain n : forall s : chan, creach N s -> recv s = RDrain -> length (readyq s) = n ->
  exists s', run step s (repeat LRStep (2 * n + 1)) = Some s' /\ recv s' = RWakeAll /\ readyq s' = [] /\ wq s' = wq s.
Proof.
  induction n as [|n IH]; intros s Hr Hp Hn.
  - destruct (readyq s) eqn:Eq; [|discriminate]. simpl. rewrite Hp, Eq. simpl. eexists. split; [reflexivity|]. simpl. auto.
  - assert (Hne : readyq s <> []) by (intros E; rewrite E in Hn; discriminate).
    destruct (exists_last Hne) as (q & x & Eq).
    replace (2 * S n + 1) with (S (S (2 * n + 1))) by lia. cbn [repeat run].
    assert (E1 : step s LRStep = Some (set_recv (set_readyq s q) (RDrop x))).
    { simpl. rewrite Hp, Eq, rev_app_distr, removelast_last. reflexivity. }
    rewrite E1.
    assert (Hr1 : creach N (set_recv (set_readyq s q) (RDrop x))) by (eapply reach_step; eauto).
    pose proof (IO_recv (A_O (InvAll_reach Hr1)) (x := x) eq_refl) as Hx. simpl in Hx.
    destruct (slots s x) as [v|] eqn:Es; [|congruence].
    assert (E2 : step (set_recv (set_readyq s q) (RDrop x)) LRStep =
                 Some (emit (set_recv (set_slot (set_recv (set_readyq s q) (RDrop x)) x None) RDrain) (EDropV v))).
    { simpl. rewrite Es. reflexivity. }
    rewrite E2.
    destruct (IH (emit (set_recv (set_slot (set_recv (set_readyq s q) (RDrop x)) x None) RDrain) (EDropV v))) as (s' & H1 & H2 & H3 & H4).
    + eapply reach_step; eauto.
    + reflexivity.
    + simpl. rewrite Eq, app_length in Hn. simpl in Hn. lia.
    + exists s'. auto.
Qed.

Lemma drop_wake n : forall s : chan, recv s = RWakeAll -> length (wq s) = n ->
  exists s', run step s (repeat LRStep (n + 1)) = Some s' /\ recv s' = RDead /\ wq s' = [] /\ readyq s' = readyq s.
Proof.
  induction n as [|n IH]; intros s Hp Hn.
  - destruct (wq s) eqn:Eq; [|discriminate]. simpl. rewrite Hp, Eq. eexists. split; [reflexivity|]. simpl. auto.
  - destruct (wq s) as [|j q] eqn:Eq; [discriminate|]. simpl. rewrite Hp, Eq.
    edestruct IH as (s' & H1 & H2 & H3 & H4); [| |exists s'; split; [exact H1|auto]].
    + simpl. exact Hp.
    + simpl. simpl in Hn. lia.
Qed.

Lemma drop_completes (s : chan) : creach N s -> recv s = RIdle ->
  exists s', run step s (LDropR :: repeat LRStep (2 * length (readyq s) + 1 + (length (wq s) + 1))) = Some s' /\
    recv s' = RDead /\ readyq s' = [] /\ wq s' = [] /\
    Permutation (map snd (commits (log s'))) (recvs (log s') ++ drops (log s')).
Proof.
  intros Hr Hp. rewrite repeat_app.
  assert (E1 : step s LDropR = Some (mkC (freeq s) (readyq s) (slots s) (wq s) true (nsend s) (rwaker s) (hs s) RDrain (r_woken s) (bug s) (seqno s) (log s))).
  { simpl. now rewrite Hp. }
  cbn [run]. rewrite E1. rewrite run_app.
  match type of E1 with _ = Some ?x => set (s1 := x) in * end.
  assert (Hr1 : creach N s1) by (eapply reach_step; eauto).
  destruct (@drop_drain (length (readyq s)) s1 Hr1 eq_refl eq_refl) as (s2 & H1 & H2 & H3 & H4). rewrite H1.
  destruct (@drop_wake (length (wq s)) s2 H2) as (s3 & H5 & H6 & H7 & H8); [now rewrite H4|].
  exists s3. split; [exact H5|]. split; [exact H6|]. split; [congruence|]. split; [exact H7|].
  assert (Hr3 : creach N s3).
  { eapply reach_trans; [exact Hr1|]. eapply reach_trans; [eexists; exact H1|]. eexists; exact H5. }
  pose proof (InvD_reach Hr3) as HD. unfold InvD, held_val in HD. rewrite H6, H8, H3 in HD. simpl in HD.
  rewrite app_nil_r, <- map_app in HD.
  apply Permutation_map_inv in HD as (l & E & Hl).
  apply map_Some_inj in E. subst l. symmetry. exact Hl.
Qed.

(** at the moment the draining loop of Receiver::drop ends, everything committed was received or dropped *)
Lemma drained_conserved s s' : creach N s -> recv s = RDrain -> step s LRStep = Some s' -> recv s' = RWakeAll ->
  Permutation (map snd (commits (log s'))) (recvs (log s') ++ drops (log s')).
Proof.
  intros Hr Hp Hs Hp'. assert (Hr' : creach N s') by (eapply reach_step; eauto).
  pose proof (InvD_reach Hr') as HD. unfold InvD, held_val in HD. rewrite Hp' in HD.
  assert (Hq : readyq s' = []).
  { simpl in Hs. rewrite Hp in Hs. destruct (rev (readyq s)) eqn:E; injection Hs as <-; [|discriminate].
    simpl. rewrite <- (rev_involutive (readyq s)), E. reflexivity. }
  rewrite Hq in HD. simpl in HD. rewrite app_nil_r, <- map_app in HD.
  apply Permutation_map_inv in HD as (l & E & Hl).
  apply map_Some_inj in E. subst l. symmetry. exact Hl.
Qed.

(** * Values *)
Lemma handle_history (s : chan) j : creach N s ->
  exists l tail, ops j l /\ filter (about j) (log s) = l ++ tail /\
    (tail = [] \/ exists v, tail = [EStart j v] \/ tail = [EStart j v; ECommit j v]) /\
    (h_pc (hs s j) = HIdle -> tail = []).
Proof.
  intros Hr. destruct (X_H (InvX_reach Hr) j) as (l & Hl & Hf). exists l, (tailof j (h_pc (hs s j))).
  split; [exact Hl|]. split; [exact Hf|]. split; [|intros ->; reflexivity].
  destruct (h_pc (hs s j)); simpl; eauto.
Qed.

Lemma undropped_contents (s : chan) : creach N s -> rdropped s = false -> rheld (recv s) = None ->
  map Some (map snd (commits (log s))) = map Some (recvs (log s)) ++ map (slots s) (readyq s).
Proof.
  intros Hr Hd Hh. rewrite (T_eq (X_T (InvX_reach Hr)) Hd). unfold infl. destruct (recv s); try discriminate; reflexivity.
Qed.

(** the wake-up guarantee *)
Lemma receiver_woken (s : chan) w : creach N s -> recv s = RSleep w -> (readyq s <> [] \/ nsend s = 0) ->
  (forall j, steps_left (h_pc (hs s j)) = 0) -> r_woken s = true.
Proof.
  intros Hr Hp Hc Hq. pose proof (X_R (InvX_reach Hr)) as HR. destruct Hc as [Hc|Hc].
  - destruct (R_msg HR) as [?|(j & v & E)]; auto; [now rewrite Hp|]. specialize (Hq j). rewrite E in Hq. discriminate.
  - destruct (R_end HR Hp Hc) as [?|(j & E)]; auto. specialize (Hq j). rewrite E in Hq. discriminate.
Qed.

Lemma no_sender_all_gone (s s' : chan) l : creach N s -> step s l = Some s' -> emits s s' ENoSender ->
  forall j, alive (h_pc (hs s j)) = false.
Proof.
  intros Hr Hs He j. destruct (emits_may l Hr Hs He) as [_ Hn].
  destruct (A_N (InvAll_reach Hr)) as (l0 & _ & H2 & H3). rewrite Hn in H3. destruct l0; [|discriminate].
  destruct (alive (h_pc (hs s j))) eqn:E; [|reflexivity]. apply H2 in E. destruct E.
Qed.

(** re-split *)
Lemma resplit_closed (s : chan) v : creach N s -> recv s = RDead ->
  rdropped (do_split N s) = true /\
  exists u, run step (do_split N s) [LTry 0 v; LStep 0] = Some u /\ emits (do_split N s) u (ENoRecv 0 v).
Proof.
  intros Hr Hp. pose proof (A_L (InvAll_reach Hr)) as HL. pose proof (InvW_reach Hr Hp) as Hw.
  assert (Hd : rdropped s = true) by (rewrite (L_drop HL), Hp; reflexivity).
  split; [exact Hd|]. unfold do_split. simpl. rewrite Hw. simpl. rewrite Hd. eexists. split; [reflexivity|].
  unfold emits. simpl. exists [EStart 0 v; ENoRecv 0 v]. split; [now rewrite <- app_assoc|]. simpl. auto.
Qed.
End F.
