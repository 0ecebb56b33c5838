(** Further invariants of the channel model: sender count, absence of run-time failures, traces,
    receiver wake-up, order of waiting senders. *)
From Verif Require Import Base LTS WakerRegModel ChannelModel ChannelSpec ChannelInv ChannelOwn.
From Coq Require Import Sorting.Sorted.
Set Implicit Arguments.

Ltac sc Hs := repeat (cbn zeta beta in Hs; match type of Hs with
 | None = Some _ => discriminate Hs
 | Some _ = Some _ => injection Hs as <-
 | match ?x with _ => _ end = Some _ => let E := fresh "E" in destruct x eqn:E
 | (if ?x then _ else _) = Some _ => let E := fresh "E" in destruct x eqn:E
 end).

Section P.
Context {V : Type} (N : nat).
Notation chan := (chan V).
Notation step := (@step V N).
Notation hst := (hst V).

(** * Effect of the helper functions on the program counters and the log *)
Lemma poll_pc_other (s : chan) j w v k : k <> j -> hs (send_poll s j w v) k = hs s k.
Proof.
  intros Hne. unfold send_poll. destruct (rdropped s); [|destruct (h_link (hs s j)); [destruct (wq s); [destruct (freeq s)|]| |]];
    simpl; now rewrite upd_other.
Qed.

(** the possible results of a poll *)
Lemma poll_pc (s : chan) j w v :
  h_pc (hs (send_poll s j w v) j) = SWait v \/ exists d, h_pc (hs (send_poll s j w v) j) = SDrop1 d v /\ d <> DCancel.
Proof.
  unfold send_poll. destruct (rdropped s).
  { right. exists DErr. split; [|discriminate]. simpl. now rewrite upd_same. }
  destruct (h_link (hs s j)).
  - destruct (wq s); [destruct (freeq s)|]; try (left; simpl; rewrite upd_same; reflexivity).
    right. eexists. split; [simpl; rewrite upd_same; reflexivity|discriminate].
  - left. simpl. now rewrite upd_same.
  - right. simpl. rewrite upd_same. simpl. eexists. split; [reflexivity|]. destruct (h_slot (hs s j)); discriminate.
Qed.

Lemma poll_same (s : chan) j w v :
  readyq (send_poll s j w v) = readyq s /\ slots (send_poll s j w v) = slots s /\ nsend (send_poll s j w v) = nsend s /\
  recv (send_poll s j w v) = recv s /\ rwaker (send_poll s j w v) = rwaker s /\ r_woken (send_poll s j w v) = r_woken s /\
  bug (send_poll s j w v) = bug s /\ log (send_poll s j w v) = log s /\ rdropped (send_poll s j w v) = rdropped s.
Proof.
  unfold send_poll. destruct (rdropped s) eqn:E.
  { simpl. repeat split. exact E. }
  destruct (h_link (hs s j)); [destruct (wq s); [destruct (freeq s)|]| |]; simpl; repeat split; exact E.
Qed.

Lemma return_same (s : chan) x :
  readyq (return_slot N s x) = readyq s /\ slots (return_slot N s x) = slots s /\ nsend (return_slot N s x) = nsend s /\
  recv (return_slot N s x) = recv s /\ rwaker (return_slot N s x) = rwaker s /\ r_woken (return_slot N s x) = r_woken s /\
  rdropped (return_slot N s x) = rdropped s /\ seqno (return_slot N s x) = seqno s.
Proof. unfold return_slot. destruct (wq s); simpl; repeat split. Qed.

Lemma return_log (s : chan) x : log (return_slot N s x) = log s ++ match wq s with [] => [] | j :: _ => [EHand j x] end.
Proof. unfold return_slot. destruct (wq s); simpl; [now rewrite app_nil_r|reflexivity]. Qed.

(** state after the second half of the dropper *)
Definition drop2 (s : chan) (j : nat) (d : dres) (v : V) : chan :=
  match h_slot (hs s j) with
  | Some x => return_slot N (set_h s j (mkH (SDrop2 d v) (h_link (hs s j)) None (h_waker (hs s j)) (h_woken (hs s j)) (h_seq (hs s j)))) x
  | None => set_h s j (mkH (SDrop2 d v) (h_link (hs s j)) None (h_waker (hs s j)) (h_woken (hs s j)) (h_seq (hs s j)))
  end.

Lemma drop2_pc (s : chan) j d v k : h_pc (hs (drop2 s j d v) k) = if Nat.eqb k j then SDrop2 d v else h_pc (hs s k).
Proof.
  unfold drop2. destruct (h_slot (hs s j)); [rewrite return_pc|]; simpl; unfold upd; destruct (Nat.eqb k j); reflexivity.
Qed.

Lemma drop2_same (s : chan) j d v :
  readyq (drop2 s j d v) = readyq s /\ slots (drop2 s j d v) = slots s /\ nsend (drop2 s j d v) = nsend s /\
  recv (drop2 s j d v) = recv s /\ rwaker (drop2 s j d v) = rwaker s /\ r_woken (drop2 s j d v) = r_woken s /\
  rdropped (drop2 s j d v) = rdropped s /\ seqno (drop2 s j d v) = seqno s.
Proof. unfold drop2. destruct (h_slot (hs s j)) as [x|]; [apply (return_same (set_h s j _) x)|repeat split]. Qed.

(** * A flat view of the steps: what each step does to pcs, log and receiver.
    [Act s s' j p es]: handle [j] moves to pc [p], emitting [es]; all other pcs unchanged. *)
Definition pcs_upd (s s' : chan) (j : nat) (p : hpc V) : Prop :=
  forall k, h_pc (hs s' k) = if Nat.eqb k j then p else h_pc (hs s k).

(** events that are about no operation of a sender *)
Definition silent (e : event V) : bool :=
  match e with EHand _ _ | EWakeS _ | EWakeR _ | EEmpty | ENoSender | EDropV _ => true | _ => false end.

Lemma map_silent k : forallb silent (map (@EWakeR V) k) = true.
Proof. induction k; auto. Qed.

(** * Sender count *)
Definition InvN (s : chan) : Prop :=
  exists l, NoDup l /\ (forall j, In j l <-> alive (h_pc (hs s j)) = true) /\ nsend s = length l.

Lemma InvN_frame (s s' : chan) :
  InvN s -> nsend s' = nsend s -> (forall j, alive (h_pc (hs s' j)) = alive (h_pc (hs s j))) -> InvN s'.
Proof. intros (l & H1 & H2 & H3) E1 E2. exists l. split; [auto|split; [|congruence]]. intros j. rewrite E2. auto. Qed.

Lemma InvN_pc (s s' : chan) j p :
  InvN s -> nsend s' = nsend s -> pcs_upd s s' j p -> alive p = alive (h_pc (hs s j)) -> InvN s'.
Proof.
  intros H E1 E2 E3. apply InvN_frame with (s := s); auto. intros k. rewrite E2.
  destruct (Nat.eqb_spec k j) as [->|]; auto.
Qed.

Lemma pcs_set_pc (s : chan) j p : pcs_upd s (set_pc s j p) j p.
Proof. intros k. simpl. unfold upd. destruct (Nat.eqb k j); reflexivity. Qed.

Lemma pcs_trans (s s1 s' : chan) j p p1 : pcs_upd s s1 j p1 -> pcs_upd s1 s' j p -> pcs_upd s s' j p.
Proof. intros H1 H2 k. rewrite H2, H1. destruct (Nat.eqb k j); reflexivity. Qed.

(** [step s (LStep j)] in flat form *)
Lemma poll_pcs (s : chan) j w v : exists p, pcs_upd s (send_poll s j w v) j p /\
  (p = SWait v \/ exists d, p = SDrop1 d v /\ d <> DCancel).
Proof.
  exists (h_pc (hs (send_poll s j w v) j)). split; [|apply poll_pc].
  intros k. destruct (Nat.eqb_spec k j) as [->|]; [reflexivity|]. now rewrite poll_pc_other.
Qed.

Lemma drop2_pcs (s : chan) j d v p : pcs_upd s (set_pc (drop2 s j d v) j p) j p.
Proof. intros k. simpl. unfold upd. destruct (Nat.eqb_spec k j) as [->|]; [reflexivity|]. rewrite drop2_pc. apply Nat.eqb_neq in n. now rewrite n. Qed.

Lemma wake_pcs (s : chan) j p : pcs_upd s (set_pc (wake_receiver s) j p) j p.
Proof.
  destruct (wake_same s) as (_ & E & _). intros k. simpl. unfold upd. destruct (Nat.eqb_spec k j); [reflexivity|].
  now rewrite E.
Qed.

Ltac pcs := first [apply pcs_set_pc | apply drop2_pcs | apply wake_pcs
  | match goal with |- pcs_upd ?s (emit ?x _) _ _ => change (pcs_upd s x) ; pcs end
  | let k := fresh in intros k; simpl; unfold upd; destruct (Nat.eqb k _); reflexivity].

Lemma InvN_step s l s' : InvL s -> InvN s -> step s l = Some s' -> InvN s'.
Proof.
  intros HL HN Hs. destruct l as [|j k|j v|j v|j w|j|j|j| |w| | |]; simpl in Hs.
  - (* split *)
    destruct (recv s) eqn:Er; try discriminate. injection Hs as <-.
    pose proof (L_new HL Er) as ->. exists [0]. split; [repeat constructor; simpl; tauto|split; [|reflexivity]].
    intros j. simpl. unfold upd. destruct (Nat.eqb_spec j 0); simpl; intuition (congruence || discriminate).
  - (* clone *)
    sc Hs. destruct HN as (l & H1 & H2 & H3). exists (k :: l). split; [|split].
    + constructor; [|auto]. rewrite H2, E0. discriminate.
    + intros i. simpl. unfold upd. rewrite H2. destruct (Nat.eqb_spec i k) as [->|]; simpl; [tauto|]. intuition congruence.
    + simpl. lia.
  - sc Hs.
    + apply InvN_pc with (s := s) (j := j) (p := TClosed v); auto; [pcs|now rewrite E].
    + exact HN.
  - sc Hs. apply InvN_pc with (s := s) (j := j) (p := SNew v); auto; [pcs|now rewrite E].
  - assert (X : forall v, alive (h_pc (hs s j)) = true -> InvN (send_poll s j w v)).
    { intros v Ha. destruct (poll_pcs s j w v) as (p & Hp & Hq). destruct (poll_same s j w v) as (_ & _ & En & _).
      apply InvN_pc with (s := s) (j := j) (p := p); auto. rewrite Ha. destruct Hq as [->|(d & -> & _)]; reflexivity. }
    sc Hs; apply X; reflexivity.
  - destruct (wake_same s) as (_ & _ & _ & _ & _ & _ & _ & _ & En & _).
    destruct (h_pc (hs s j)) as [| |v|v|v|v|d v|d v|x v|x v|v| |] eqn:E; try discriminate.
    + sc Hs; (eapply InvN_pc with (s := s) (j := j); [auto|reflexivity|pcs|now rewrite E]).
    + sc Hs; (eapply InvN_pc with (s := s) (j := j); [auto|reflexivity|pcs|now rewrite E]).
    + sc Hs; (eapply InvN_pc with (s := s) (j := j); [auto|reflexivity|pcs|now rewrite E]).
    + destruct (drop2_same s j d v) as (_ & _ & En2 & _). fold (drop2 s j d v) in Hs.
      sc Hs; (eapply InvN_pc with (s := s) (j := j); [auto|exact En2|pcs|now rewrite E]).
    + sc Hs; (eapply InvN_pc with (s := s) (j := j); [auto|reflexivity|pcs|now rewrite E]).
    + sc Hs; (eapply InvN_pc with (s := s) (j := j); [auto|reflexivity|pcs|now rewrite E]).
    + sc Hs; (eapply InvN_pc with (s := s) (j := j); [auto|exact En|pcs|now rewrite E]).
    + sc Hs; (eapply InvN_pc with (s := s) (j := j); [auto|exact En|pcs|now rewrite E]).
  - sc Hs; (eapply InvN_pc with (s := s) (j := j); [auto|reflexivity|pcs|now rewrite E]).
  - sc Hs. destruct HN as (l & H1 & H2 & H3). exists (remove Nat.eq_dec j l).
    assert (Hj : In j l) by (rewrite H2, E; reflexivity).
    split; [now apply NoDup_remove_eq|split].
    + intros i. simpl. unfold upd. destruct (Nat.eqb_spec i j) as [->|Hne]; simpl.
      * split; [intros X; now apply remove_In in X|]. destruct (pred (nsend s) =? 0); discriminate.
      * rewrite <- H2. split; [intros X; apply in_remove in X; tauto|intros X; now apply in_in_remove].
    + simpl. rewrite H3. clear -H1 Hj. induction l as [|a l IH]; simpl; [destruct Hj|].
      inversion H1; subst. destruct (Nat.eq_dec j a) as [->|Hne].
      * now rewrite remove_notin.
      * destruct Hj as [->|Hj]; [congruence|]. simpl. rewrite <- IH by auto. destruct l; [destruct Hj|reflexivity].
  - sc Hs. apply InvN_frame with (s := s); auto.
  - sc Hs; apply InvN_frame with (s := s); auto.
  - destruct (recv s) as [| |w|w|w x|w x v|w|w| |x| |] eqn:Er; try discriminate.
    + sc Hs. destruct (reg_same s w) as (_ & E2 & _ & _ & _ & _ & _ & _ & En & _).
      apply InvN_frame with (s := s); auto. simpl. now rewrite E2.
    + sc Hs; apply InvN_frame with (s := s); auto.
    + sc Hs; apply InvN_frame with (s := s); auto.
    + sc Hs. destruct (return_same s x) as (_ & _ & En & _). apply InvN_frame with (s := s); auto.
      intros j. simpl. now rewrite return_pc.
    + sc Hs; apply InvN_frame with (s := s); auto.
    + sc Hs; apply InvN_frame with (s := s); auto.
    + sc Hs; apply InvN_frame with (s := s); auto.
    + sc Hs; apply InvN_frame with (s := s); auto. intros k. simpl. unfold upd.
      destruct (Nat.eqb_spec k n) as [->|]; reflexivity.
  - sc Hs; apply InvN_frame with (s := s); auto.
  - sc Hs; apply InvN_frame with (s := s); auto.
Qed.

Lemma InvN_reach s : creach N s -> InvN s.
Proof.
  intros H. assert (X : InvL s /\ InvN s); [|tauto]. revert s H. apply reach_inv.
  - split; [apply InvL_new|]. exists []. split; [constructor|split; [|reflexivity]]. intros j. simpl. split; [tauto|discriminate].
  - intros s l s' [HL HO] Hs. split; [eapply InvL_step; eauto|eapply InvN_step; eauto].
Qed.

(** * No run-time failure *)
Lemma own_bound (l : list nat) : NoDup l -> (forall x, In x l -> x < N) -> length l <= N.
Proof.
  intros Hn Hb. rewrite <- (seq_length N 0). apply NoDup_incl_length; [exact Hn|].
  intros x Hx. apply in_seq. specialize (Hb x Hx). lia.
Qed.

Lemma free_lt (s : chan) x : InvO N s -> In x (freeq s) -> x < N.
Proof.
  intros [(wh & H1 & H2 & _) _ _ _ _] Hx. apply (O_f H1) in Hx.
  destruct (Nat.lt_ge_cases x N); [auto|]. rewrite H2 in Hx by auto. discriminate.
Qed.
Lemma ready_lt (s : chan) x : InvO N s -> In x (readyq s) -> x < N.
Proof.
  intros [(wh & H1 & H2 & _) _ _ _ _] Hx. apply (O_r H1) in Hx.
  destruct (Nat.lt_ge_cases x N); [auto|]. rewrite H2 in Hx by auto. discriminate.
Qed.

Lemma return_bug (s : chan) x : bug s = false -> InvL s -> InvOx N s x -> bug (return_slot N s x) = false.
Proof.
  intros Hb HL HX. pose proof (InvO_return HL HX) as HO. unfold return_slot in *.
  destruct (wq s) as [|j q] eqn:Eq; [|exact Hb]. simpl. rewrite Hb. simpl.
  apply Nat.leb_gt. assert (X : length (freeq s ++ [x]) <= N).
  { apply own_bound.
    - destruct HO as [(wh & H1 & _) _ _ _ _]. apply (O_ndf H1).
    - intros y Hy. apply (free_lt y HO). exact Hy. }
  rewrite app_length in X. simpl in X. lia.
Qed.

Lemma bug_step s l s' : InvL s -> InvO N s -> InvN s -> bug s = false -> step s l = Some s' -> bug s' = false.
Proof.
  intros HL HO HN Hb Hs.
  pose proof (InvO_step l HL HO Hs) as HO'.
  destruct l as [|j k|j v|j v|j w|j|j|j| |w| | |]; simpl in Hs.
  - destruct (recv s) eqn:Er; try discriminate. injection Hs as <-. pose proof (L_new HL Er) as ->. reflexivity.
  - sc Hs; exact Hb.
  - sc Hs; exact Hb.
  - sc Hs; exact Hb.
  - destruct (h_pc (hs s j)); try discriminate; injection Hs as <-;
      destruct (poll_same s j w v) as (_ & _ & _ & _ & _ & _ & -> & _); exact Hb.
  - destruct (wake_same s) as (_ & _ & _ & _ & _ & _ & _ & Eb & _).
    pose proof (L_h HL j) as Hk. unfold hok in Hk.
    destruct (h_pc (hs s j)) as [| |v|v|v|v|d v|d v|x v|x v|v| |] eqn:E; try discriminate.
    + sc Hs; exact Hb.
    + sc Hs; exact Hb.
    + sc Hs; exact Hb.
    + assert (X : bug (drop2 s j d v) = false).
      { unfold drop2. destruct (h_slot (hs s j)) as [x|] eqn:Es; [|exact Hb].
        assert (Hlk : h_link (hs s j) = LNone) by (destruct d; [apply Hk|exact Hk|exact Hk]).
        assert (Hd : match d with DOk _ => False | _ => True end) by (destruct d; [destruct Hk; congruence|auto|auto]).
        apply return_bug; [exact Hb| |].
        - apply InvL_set_h; [exact HL|apply recv_alive with (j := j); [exact HL|congruence]| |reflexivity|intros; discriminate].
          unfold hok; simpl. rewrite Hlk. destruct d; auto.
        - apply InvO_take_h; auto; unfold hheld, hcont; rewrite ?E; simpl; destruct d; auto; contradiction. }
      fold (drop2 s j d v) in Hs. sc Hs; exact X.
    + sc Hs. simpl. rewrite Hb. simpl.
      assert (X : slots s x = hcont (hs s j)) by (apply (IO_h HO); unfold hheld; now rewrite E).
      rewrite X. unfold hcont. now rewrite E.
    + sc Hs. simpl. rewrite Hb. simpl. apply Nat.leb_gt.
      assert (X : length (readyq s ++ [x]) <= N).
      { apply own_bound.
        - destruct HO' as [(wh & H1 & _) _ _ _ _]. apply (O_ndr H1).
        - intros y Hy. apply (ready_lt y HO'). exact Hy. }
      rewrite app_length in X. simpl in X. lia.
    + sc Hs. simpl. congruence.
    + sc Hs. simpl. congruence.
  - sc Hs; exact Hb.
  - sc Hs. destruct HN as (l & H1 & H2 & H3). simpl. rewrite Hb. simpl.
    destruct (nsend s) eqn:En; [|reflexivity]. exfalso.
    assert (Hj : In j l) by (rewrite H2, E; reflexivity). destruct l; [destruct Hj|discriminate].
  - sc Hs; exact Hb.
  - sc Hs; exact Hb.
  - pose proof (IO_recv HO) as Hrc.
    destruct (recv s) as [| |w|w|w x|w x v|w|w| |x| |] eqn:Er; try discriminate.
    + sc Hs. simpl. destruct (reg_same s w) as (_ & _ & _ & _ & _ & _ & _ & Eb & _). congruence.
    + sc Hs; exact Hb.
    + sc Hs; [exact Hb|]. exfalso. now apply (Hrc x).
    + sc Hs. simpl.
      assert (HX : InvOx N (set_recv s RIdle) x) by (eapply InvO_take_r; eauto).
      assert (HL1 : InvL (set_recv s RIdle)).
      { apply InvL_frame with (s := s); simpl; auto; [now rewrite Er|discriminate]. }
      pose proof (return_bug (s := set_recv s RIdle) Hb HL1 HX) as X.
      unfold return_slot in *. change (wq (set_recv s RIdle)) with (wq s) in X. destruct (wq s); exact X.
    + sc Hs; exact Hb.
    + sc Hs; exact Hb.
    + sc Hs; [exact Hb|]. exfalso. now apply (Hrc x).
    + sc Hs; exact Hb.
  - sc Hs; exact Hb.
  - sc Hs; exact Hb.
Qed.

Record InvAll (s : chan) : Prop := { A_L : InvL s; A_O : InvO N s; A_N : InvN s; A_b : bug s = false }.

Lemma InvAll_reach s : creach N s -> InvAll s.
Proof.
  revert s. apply reach_inv.
  - constructor; [apply InvL_new|apply InvO_new| |reflexivity].
    exists []. split; [constructor|split; [|reflexivity]]. intros j. simpl. split; [tauto|discriminate].
  - intros s l s' [H1 H2 H3 H4] Hs. constructor.
    + eapply InvL_step; eauto.
    + eapply InvO_step; eauto.
    + eapply InvN_step; eauto.
    + eapply bug_step; eauto.
Qed.
End P.
