(** C83: the query functions of a channel ([is_closed], [is_full], [is_empty] on both ends) tell the truth.
    Definitions of the queries: top of ChannelQuery.v.  [creach N s]: [s] is reached from a new channel with
    [N] slots by some schedule.  [commits (log s)] are the values sent so far, [recvs (log s)] those received. *)
From Verif Require Import Base LTS WakerRegModel ChannelModel ChannelSpec ChannelInv ChannelOwn ChannelProofs ChannelTrace ChannelMore ChannelFinal ChannelQuery PropertiesChannel.
From Coq Require Import Permutation.
Set Implicit Arguments.

Section Q.
Context {V : Type} (N : nat).
Implicit Types (s : chan V) (j k x w : nat) (v : V).

(** values sent and not yet received *)
Definition outstanding s : nat := length (commits (log s)) - length (recvs (log s)).

(** ** Sender::is_closed *)
(** It says exactly whether dropping the receiver has begun; the answer "closed" is final; and once the drop
    is over, an attempt to send gives the value back with NoReceiver. *)
Theorem C83_sender_closed :
  forall s, creach N s ->
  (sender_is_closed s = true <-> recv s = RDrain \/ (exists x, recv s = RDrop x) \/ recv s = RWakeAll \/ recv s = RDead) /\
  (sender_is_closed s = true -> forall ls s', run (step N) s ls = Some s' -> sender_is_closed s' = true) /\
  (recv s = RDead -> forall j v, h_pc (hs s j) = HIdle ->
     exists s', run (step N) s [LTry j v; LStep j] = Some s' /\ h_pc (hs s' j) = HIdle /\ log s' = log s ++ [EStart j v; ENoRecv j v]).
Proof.
  intros s Hr. unfold sender_is_closed. pose proof (A_L (InvAll_reach Hr)) as HL. pose proof (L_drop HL) as Hd. split; [|split].
  - rewrite Hd. destruct (recv s); simpl; split; intros H; try discriminate; try tauto; eauto;
      try (destruct H as [H|[[? H]|[H|H]]]; discriminate).
  - intros H ls. revert s Hr HL Hd H. induction ls as [|l ls IH]; simpl; intros s Hr HL Hd H s' Hs; [now injection Hs as <-|].
    destruct (step N s l) as [s1|] eqn:E; [|discriminate].
    assert (Hr1 : creach N s1) by (eapply reach_step; eauto).
    eapply (IH s1 Hr1 (A_L (InvAll_reach Hr1)) (L_drop (A_L (InvAll_reach Hr1)))); [|exact Hs].
    apply (@rdropped_mono V N _ _ _ HL E H).
  - intros Hp j v Hj. pose proof (InvW_reach Hr Hp) as Hw. rewrite Hp in Hd. simpl. rewrite Hj. simpl. rewrite Hw. simpl.
    rewrite upd_same. simpl. rewrite Hd. simpl. eexists. split; [reflexivity|]. simpl. rewrite upd_same. simpl.
    split; [reflexivity|]. now rewrite <- app_assoc.
Qed.

(** ** Receiver::is_closed *)
(** It says exactly whether every sender is gone; the answer "closed" is final; and then a receive never
    reports Empty. *)
Theorem C83_receiver_closed :
  forall s, creach N s -> recv s <> RNone ->
  (receiver_is_closed s = true <-> forall j, alive (h_pc (hs s j)) = false) /\
  (receiver_is_closed s = true -> forall l s', step N s l = Some s' -> receiver_is_closed s' = true /\ ~ emits s s' EEmpty).
Proof.
  intros s Hr Hn. unfold receiver_is_closed. destruct (A_N (InvAll_reach Hr)) as (l0 & H1 & H2 & H3).
  assert (X : (nsend s =? 0) = true <-> forall j, alive (h_pc (hs s j)) = false).
  { rewrite Nat.eqb_eq, H3. split.
    - intros E j. destruct l0; [|discriminate]. destruct (alive (h_pc (hs s j))) eqn:Ea; [|reflexivity]. now apply H2 in Ea.
    - intros E. destruct l0 as [|j l0]; [reflexivity|]. specialize (E j). rewrite (proj1 (H2 j) (or_introl eq_refl)) in E. discriminate. }
  split; [exact X|]. intros E l s' Hs. pose proof (proj1 X E) as Ha. split.
  - apply Nat.eqb_eq in E. apply Nat.eqb_eq.
    assert (I : forall j, h_pc (hs s j) = HIdle -> False) by (intros j Hj; specialize (Ha j); rewrite Hj in Ha; discriminate).
    destruct l as [|i k|i v|i v|i w|i|i|i| |w| | |]; simpl in Hs.
    + destruct (recv s); try discriminate. congruence.
    + destruct (h_pc (hs s i)) eqn:Ei; try discriminate. now destruct (I i).
    + destruct (h_pc (hs s i)) eqn:Ei; try discriminate. now destruct (I i).
    + destruct (h_pc (hs s i)) eqn:Ei; try discriminate. now destruct (I i).
    + specialize (Ha i). destruct (h_pc (hs s i)); discriminate.
    + specialize (Ha i). destruct (h_pc (hs s i)); try discriminate. injection Hs as <-. simpl.
      destruct (wake_same s) as (_ & _ & _ & _ & _ & _ & _ & _ & -> & _). exact E.
    + specialize (Ha i). destruct (h_pc (hs s i)); discriminate.
    + destruct (h_pc (hs s i)) eqn:Ei; try discriminate. now destruct (I i).
    + sc Hs. exact E.
    + sc Hs; exact E.
    + destruct (recv s) as [| |w|w|w x|w x v|w|w| |x| |] eqn:Er; try discriminate; try (rewrite E in Hs); try (sc Hs; simpl in *; auto; congruence).
      * sc Hs. simpl. destruct (reg_same s w) as (_ & _ & _ & _ & _ & _ & _ & _ & -> & _). exact E.
      * sc Hs. simpl. destruct (return_same N s x) as (_ & _ & -> & _). exact E.
    + sc Hs. exact E.
    + sc Hs. exact E.
  - intros He. pose proof (emits_may l Hr Hs He) as [_ Hm]. apply Nat.eqb_eq in E. congruence.
Qed.

(** ** Receiver::is_empty *)
(** For a receiver that is not in the middle of an operation, "empty" means that everything sent has been
    received. *)
Theorem C83_receiver_empty :
  forall s, creach N s -> sender_is_closed s = false -> rheld (recv s) = None ->
  (receiver_is_empty s = true <-> map snd (commits (log s)) = recvs (log s)).
Proof.
  intros s Hr Hd Hh. unfold receiver_is_empty. pose proof (@undropped_contents V N s Hr Hd Hh) as E. split.
  - intros H. destruct (readyq s) eqn:Eq; [|discriminate]. simpl in E. rewrite app_nil_r in E. now apply map_Some_inj.
  - intros H. rewrite H in E. destruct (readyq s); [reflexivity|]. apply (f_equal (@length _)) in E.
    rewrite app_length, !map_length in E. simpl in E. lia.
Qed.

(** "Not empty" is a promise the senders cannot break: whatever they do meanwhile, a [try_recv] started now
    returns a value, the oldest not yet received. *)
Theorem C83_not_empty_is_received :
  forall s ls s', creach N s -> recv s = RIdle -> receiver_is_empty s = false ->
  run (step N) s (LTryRecv :: ls) = Some s' -> Forall (fun l => l = LRStep \/ of_receiver l = false) ls -> recv s' = RIdle ->
  exists v rest, recvs (log s') = recvs (log s) ++ [v] /\ map snd (commits (log s)) = recvs (log s) ++ v :: rest.
Proof.
  intros s ls s' Hr Hi He Hs HF Hi'. assert (Hr' : creach N s').
  { destruct Hr as [l0 Hr]. exists (l0 ++ LTryRecv :: ls). rewrite run_app, Hr. exact Hs. }
  destruct (@log_grows_run V N _ _ _ Hr Hs) as (evs & Hlog). simpl in Hs. rewrite Hi in Hs.
  assert (HP : phase (recvs (log s)) (set_recv s (RPop None))).
  { unfold phase. simpl. split; [|reflexivity]. unfold receiver_is_empty in He. destruct (readyq s); [discriminate|discriminate]. }
  pose proof (@phase_run V N _ _ _ _ HP Hs HF) as HP'. unfold phase in HP'. rewrite Hi' in HP'. destruct HP' as (v & Hv).
  exists v. destruct (T_pre (X_T (InvX_reach Hr'))) as (rest' & Hc).
  rewrite Hlog, commits_app, map_app in Hc at 1. rewrite Hv, <- app_assoc in Hc.
  assert (Hd : rdropped s = false) by (rewrite (L_drop (A_L (InvAll_reach Hr))), Hi; reflexivity).
  assert (Hh : rheld (recv s) = None) by now rewrite Hi.
  destruct (T_pre (X_T (InvX_reach Hr))) as (rest & Hc0). rewrite Hc0, <- app_assoc in Hc. apply app_inv_head in Hc.
  destruct rest as [|v' rest].
  - exfalso. rewrite app_nil_r in Hc0. rewrite (proj2 (@C83_receiver_empty s Hr Hd Hh) Hc0) in He. discriminate.
  - simpl in Hc. injection Hc as -> _. exists rest. auto.
Qed.

(** "Empty": an undisturbed [try_recv] reports Empty, or NoSender exactly if the receiver sees the channel closed. *)
Theorem C83_empty_gives_no_value :
  forall s, recv s = RIdle -> receiver_is_empty s = true ->
  exists s', run (step N) s [LTryRecv; LRStep; LRStep] = Some s' /\ recv s' = RIdle /\
    log s' = log s ++ [if receiver_is_closed s then ENoSender else EEmpty].
Proof.
  intros s Hi He. unfold receiver_is_empty, receiver_is_closed in *. simpl. rewrite Hi. simpl.
  destruct (readyq s) eqn:Eq; [|discriminate]. simpl. destruct (nsend s); simpl; eexists; (split; [reflexivity|]); simpl; auto.
Qed.

(** ** Receiver::is_full *)
(** For a receiver that is not in the middle of an operation, "full" means that as many values as the channel
    has slots are waiting to be received; the senders then see the channel full too, and nobody else holds a
    slot. *)
Theorem C83_receiver_full :
  forall s, creach N s -> sender_is_closed s = false -> rheld (recv s) = None ->
  (receiver_is_full N s = true <-> outstanding s = N) /\ outstanding s <= N /\
  (receiver_is_full N s = true -> sender_is_full s = true /\ forall j, hheld (hs s j) = None).
Proof.
  intros s Hr Hd Hh. unfold receiver_is_full, outstanding.
  pose proof (@undropped_contents V N s Hr Hd Hh) as E. apply (f_equal (@length _)) in E. rewrite app_length, !map_length in E.
  destruct (queues_nodup Hr) as (_ & _ & _ & H4). rewrite Nat.eqb_eq.
  split; [split; lia|]. split; [lia|]. intros HN. split.
  - unfold sender_is_full. destruct (freeq s) as [|x q] eqn:Eq; [reflexivity|].
    pose proof (@all_ready_none V N s AtFree x Hr HN) as X. simpl in X. rewrite Eq in X. now specialize (X (or_introl eq_refl)).
  - intros j. destruct (hheld (hs s j)) as [x|] eqn:Ej; [|reflexivity].
    now pose proof (@all_ready_none V N s (AtSender j) x Hr HN Ej).
Qed.

(** ** Sender::is_full *)
(** While the receiver lives: "full" means that every slot holds a value to be received, is being written or
    read, or has been handed to a sender that waited. *)
Theorem C83_sender_full :
  forall s, creach N s -> recv s <> RNone -> sender_is_closed s = false ->
  (sender_is_full s = true <-> forall x, x < N -> located s x AtReady \/ located s x AtReceiver \/ exists j, located s x (AtSender j)).
Proof.
  intros s Hr Hn Hd. unfold sender_is_full. split.
  - intros H x Hx. destruct (place_exists Hr Hx Hn Hd) as [[| |j|] Hp]; eauto. simpl in Hp. destruct (freeq s); [destruct Hp|discriminate].
  - intros H. destruct (freeq s) as [|x q] eqn:Eq; [reflexivity|]. exfalso.
    assert (Hf : located s x AtFree) by (simpl; rewrite Eq; now left).
    pose proof (place_bound _ _ Hr Hf) as Hx. destruct (H x Hx) as [Hp|[Hp|[j Hp]]]; pose proof (place_unique _ _ _ Hr Hf Hp); discriminate.
Qed.

(** It predicts an undisturbed [try_send] exactly: "full" and it returns Full with the value, "not full" and it
    sends. *)
Theorem C83_sender_full_predicts :
  forall s j v, creach N s -> sender_is_closed s = false -> h_pc (hs s j) = HIdle ->
  exists n s', run (step N) s (LTry j v :: repeat (LStep j) n) = Some s' /\ h_pc (hs s' j) = HIdle /\
    if sender_is_full s then log s' = log s ++ [EStart j v; EFull j v]
    else emits s s' (ECommit j v) /\ emits s s' (ESent j v).
Proof.
  intros s j v Hr Hd Hj. pose proof (A_L (InvAll_reach Hr)) as HL. unfold sender_is_full, sender_is_closed in *.
  destruct (wq s) as [|k q] eqn:Ew.
  - destruct (freeq s) as [|x q] eqn:Ef.
    + exists 2. simpl. rewrite Hj. simpl. rewrite Ew. simpl. rewrite upd_same. simpl. rewrite Hd. simpl. rewrite upd_same. simpl. rewrite Ef.
      eexists. split; [reflexivity|]. simpl. rewrite upd_same. simpl. split; [reflexivity|]. now rewrite <- app_assoc.
    + assert (S0 : exists t, step N s (LTry j v) = Some t /\ h_pc (hs t j) = TClosed v /\ rdropped t = false /\ freeq t = x :: q /\ log t = log s ++ [EStart j v]).
      { simpl. rewrite Hj. simpl. rewrite Ew. eexists. split; [reflexivity|]. simpl. rewrite upd_same. auto. }
      destruct S0 as (t0 & S0 & P0 & D0 & F0 & L0).
      assert (S1 : exists t, step N t0 (LStep j) = Some t /\ h_pc (hs t j) = TPop v /\ freeq t = x :: q /\ log t = log t0).
      { simpl. rewrite P0, D0. eexists. split; [reflexivity|]. simpl. rewrite upd_same. auto. }
      destruct S1 as (t1 & S1 & P1 & F1 & L1).
      assert (S2 : exists t, step N t1 (LStep j) = Some t /\ h_pc (hs t j) = FWrite x v /\ log t = log t1).
      { simpl. rewrite P1, F1. eexists. split; [reflexivity|]. simpl. rewrite upd_same. auto. }
      destruct S2 as (t2 & S2 & P2 & L2).
      assert (S3 : exists t, step N t2 (LStep j) = Some t /\ h_pc (hs t j) = FPush x v /\ log t = log t2).
      { simpl. rewrite P2. eexists. split; [reflexivity|]. simpl. rewrite upd_same. auto. }
      destruct S3 as (t3 & S3 & P3 & L3).
      assert (S4 : exists t, step N t3 (LStep j) = Some t /\ h_pc (hs t j) = FWake v /\ log t = log t3 ++ [ECommit j v]).
      { simpl. rewrite P3. eexists. split; [reflexivity|]. simpl. rewrite upd_same. auto. }
      destruct S4 as (t4 & S4 & P4 & L4).
      assert (S5 : exists t ks, step N t4 (LStep j) = Some t /\ h_pc (hs t j) = HIdle /\ log t = log t4 ++ map (@EWakeR V) ks ++ [ESent j v]).
      { destruct (wake_log2 t4) as (ks & Hl & _). simpl. rewrite P4. eexists. exists ks. split; [reflexivity|].
        simpl. rewrite upd_same. split; [reflexivity|]. now rewrite Hl, <- app_assoc. }
      destruct S5 as (t5 & ks & S5 & P5 & L5).
      exists 5, t5. split; [|split; [exact P5|]].
      * change (repeat (LStep j) 5) with [@LStep V j; LStep j; LStep j; LStep j; LStep j]. cbn [run].
        rewrite S0. cbn [run]. rewrite S1. cbn [run]. rewrite S2. cbn [run]. rewrite S3. cbn [run]. rewrite S4. cbn [run]. rewrite S5. reflexivity.
      * assert (Hl : log t5 = log s ++ EStart j v :: ECommit j v :: map (@EWakeR V) ks ++ [ESent j v]).
        { rewrite L5, L4, L3, L2, L1, L0, <- !app_assoc. reflexivity. }
        split; (eexists; split; [exact Hl|]); simpl; [tauto|]. rewrite in_app_iff. simpl. tauto.
  - exists 0. simpl. rewrite Hj. simpl. rewrite Ew. eexists. split; [reflexivity|]. simpl. split; [exact Hj|].
    rewrite (L_free HL) by congruence. now rewrite <- app_assoc.
Qed.

(** ** Sender::is_empty *)
(** While the receiver lives: "empty" means that nothing is to be received, nothing is being sent or received,
    and nobody waits for a slot. *)
Theorem C83_sender_empty :
  forall s, 0 < N -> creach N s -> recv s <> RNone -> sender_is_closed s = false ->
  (sender_is_empty N s = true <-> (forall x, ~ located s x AtReady) /\ at_rest s) /\
  (sender_is_empty N s = true -> wq s = [] /\ sender_is_full s = false /\ receiver_is_empty s = true).
Proof.
  intros s HN Hr Hn Hd. unfold sender_is_empty. rewrite Nat.eqb_eq. split; [split|].
  - intros E. split; [|split].
    + intros x Hx. now pose proof (@all_free_none V N s AtReady x Hr E Hx).
    + intros j. destruct (hheld (hs s j)) as [x|] eqn:Ej; [|reflexivity]. now pose proof (@all_free_none V N s (AtSender j) x Hr E Ej).
    + destruct (rheld (recv s)) as [x|] eqn:Ej; [|reflexivity]. now pose proof (@all_free_none V N s AtReceiver x Hr E Ej).
  - intros [H1 H2]. pose proof (Permutation_length (rest_partition Hr Hn Hd H2)) as E. rewrite app_length, seq_length in E.
    destruct (readyq s) as [|x q] eqn:Eq; [simpl in E; lia|]. destruct (H1 x). simpl. rewrite Eq. now left.
  - intros E. assert (Hf : freeq s <> []) by (intros X; rewrite X in E; simpl in E; lia). split; [|split].
    + destruct (wq s) eqn:Ew; [reflexivity|]. exfalso. apply Hf. apply (L_free (A_L (InvAll_reach Hr))). congruence.
    + unfold sender_is_full. destruct (freeq s); [tauto|reflexivity].
    + unfold receiver_is_empty. destruct (readyq s) as [|x q] eqn:Eq; [reflexivity|].
      pose proof (@all_free_none V N s AtReady x Hr E) as X. simpl in X. rewrite Eq in X. now specialize (X (or_introl eq_refl)).
Qed.

(** ** The two ends agree when no operation is under way. *)
Theorem C83_ends_agree :
  forall s, creach N s -> recv s <> RNone -> sender_is_closed s = false -> at_rest s ->
  (sender_is_full s = true <-> receiver_is_full N s = true) /\ (sender_is_empty N s = true <-> receiver_is_empty s = true).
Proof.
  intros s Hr Hn Hd Ha. pose proof (Permutation_length (rest_partition Hr Hn Hd Ha)) as E. rewrite app_length, seq_length in E.
  unfold sender_is_full, receiver_is_full, sender_is_empty, receiver_is_empty. rewrite !Nat.eqb_eq.
  destruct (freeq s); destruct (readyq s); simpl in *; split; split; intros; try discriminate; auto; lia.
Qed.

(** ** After the receiver is gone the senders' [is_full] and [is_empty] say nothing any more: the slots it
    drained are not put back, so with no operation under way the answers never change again. *)
Theorem C83_frozen_after_drop :
  forall s ls s', creach N s -> sender_is_closed s = true ->
  (forall j, uncommitted (h_pc (hs s j)) = true /\ hheld (hs s j) = None) -> run (step N) s ls = Some s' ->
  sender_is_full s' = sender_is_full s /\ sender_is_empty N s' = sender_is_empty N s.
Proof.
  intros s ls s' Hr Hd Hj Hs. assert (E : freeq s' = freeq s) by (eapply late_frozen_run; eauto; split; auto).
  unfold sender_is_full, sender_is_empty. now rewrite E.
Qed.
End Q.

(** ... and they are wrong: a channel of one slot whose only value the receiver's drop discarded stays "full" and
    "not empty" for ever, although nothing is in it and nobody uses it. *)
Theorem C83_full_after_drop_refuted : exists s, creach 1 s /\ recv s = @RDead nat /\ receiver_is_empty s = true /\
  (forall j, uncommitted (h_pc (hs s j)) = true /\ hheld (hs s j) = None) /\
  sender_is_full s = true /\ sender_is_empty 1 s = false /\
  forall ls s', run (step 1) s ls = Some s' -> sender_is_full s' = true.
Proof.
  destruct (run (step 1) chan_new (LSplit :: trysend 0 7 ++ LDropR :: repeat LRStep 4)) as [s|] eqn:E; [|vm_compute in E; discriminate].
  assert (Hr : creach 1 s) by (eexists; exact E). exists s.
  assert (Hj : forall j, uncommitted (h_pc (hs s j)) = true /\ hheld (hs s j) = None).
  { vm_compute in E. injection E as <-. intros [|j]; vm_compute; auto. }
  assert (Hf : sender_is_full s = true) by (vm_compute in E; injection E as <-; reflexivity).
  assert (Hc : sender_is_closed s = true) by (vm_compute in E; injection E as <-; reflexivity).
  split; [exact Hr|]. split; [vm_compute in E; injection E as <-; reflexivity|].
  split; [vm_compute in E; injection E as <-; reflexivity|]. split; [exact Hj|]. split; [exact Hf|].
  split; [vm_compute in E; injection E as <-; reflexivity|].
  intros ls s' Hs. destruct (@C83_frozen_after_drop nat 1 s ls s' Hr Hc Hj Hs) as [-> _]. exact Hf.
Qed.

(** The two ends need not agree in between: a slot handed to a waiting sender makes the channel full for the
    senders and empty for the receiver. *)
Theorem C83_ends_differ_refuted : exists s, creach 1 s /\ recv s = @RIdle nat /\ sender_is_full s = true /\ receiver_is_empty s = true /\
  receiver_is_full 1 s = false /\ sender_is_empty 1 s = false.
Proof.
  destruct (run (step 1) chan_new (LSplit :: LClone 0 1 :: trysend 0 7 ++ [LSend 1 8; LPoll 1 0] ++ tryrecv)) as [s|] eqn:E; [|vm_compute in E; discriminate].
  exists s. split; [eexists; exact E|]. vm_compute in E. injection E as <-. vm_compute. auto.
Qed.

(** * A concrete case: two slots, one value in the channel, both ends idle. *)
Theorem C83_case : exists s : chan nat, creach 2 s /\ recv s = RIdle /\ h_pc (hs s 0) = HIdle /\ recv s <> RNone /\
  sender_is_closed s = false /\ receiver_is_closed s = false /\ receiver_is_empty s = false /\ receiver_is_full 2 s = false /\
  sender_is_full s = false /\ sender_is_empty 2 s = false /\ at_rest s /\ outstanding s = 1.
Proof.
  destruct (run (step 2) chan_new (LSplit :: trysend 0 7)) as [s|] eqn:E; [|vm_compute in E; discriminate].
  exists s. split; [eexists; exact E|]. vm_compute in E. injection E as <-. vm_compute.
  repeat split; try discriminate. intros [|j]; reflexivity.
Qed.

Print Assumptions C83_sender_closed.
Print Assumptions C83_receiver_closed.
Print Assumptions C83_receiver_empty.
Print Assumptions C83_not_empty_is_received.
Print Assumptions C83_empty_gives_no_value.
Print Assumptions C83_receiver_full.
Print Assumptions C83_sender_full.
Print Assumptions C83_sender_full_predicts.
Print Assumptions C83_sender_empty.
Print Assumptions C83_ends_agree.
Print Assumptions C83_frozen_after_drop.
Print Assumptions C83_full_after_drop_refuted.
Print Assumptions C83_ends_differ_refuted.
Print Assumptions C83_case.
