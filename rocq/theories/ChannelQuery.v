(** The query functions of rtic-sync's channel (rtic-sync/src/channel.rs), and lemmas about them.
    Each runs in one critical section and changes nothing, so it is a function of the channel's state.
    [Deque::is_full] of the [heapless] crate (not in /repo) is modelled as "holds [N] elements". *)
From Verif Require Import Base LTS WakerRegModel ChannelModel ChannelSpec ChannelInv ChannelOwn ChannelProofs ChannelTrace ChannelMore ChannelFinal.
From Coq Require Import Permutation.
Set Implicit Arguments.

Section Q.
Context {V : Type} (N : nat).
Notation chan := (chan V).
Notation step := (@step V N).
Notation event := (event V).
Notation label := (label V).

(** channel.rs 505-510, [Sender::is_closed] *)
Definition sender_is_closed (s : chan) : bool := rdropped s.
(** channel.rs 513-518, [Sender::is_full]: the free list is empty *)
Definition sender_is_full (s : chan) : bool := match freeq s with [] => true | _ => false end.
(** channel.rs 521-526, [Sender::is_empty]: the free list is full *)
Definition sender_is_empty (s : chan) : bool := length (freeq s) =? N.
(** channel.rs 643-648, [Receiver::is_closed] *)
Definition receiver_is_closed (s : chan) : bool := nsend s =? 0.
(** channel.rs 651-656, [Receiver::is_full] *)
Definition receiver_is_full (s : chan) : bool := length (readyq s) =? N.
(** channel.rs 659-664, [Receiver::is_empty] *)
Definition receiver_is_empty (s : chan) : bool := match readyq s with [] => true | _ => false end.

(** the labels that are actions of the receiver (or create it) *)
Definition of_receiver (l : label) : bool :=
  match l with LSplit | LTryRecv | LRecv _ | LRStep | LRCancel | LDropR => true | _ => false end.

Lemma other_step (s s' : chan) l : step s l = Some s' -> of_receiver l = false ->
  recv s' = recv s /\ recvs (log s') = recvs (log s) /\ exists q, readyq s' = readyq s ++ q.
Proof.
  intros Hs Ho.
  assert (K : recv s' = recv s -> recvs (log s') = recvs (log s) -> readyq s' = readyq s ->
              recv s' = recv s /\ recvs (log s') = recvs (log s) /\ exists q, readyq s' = readyq s ++ q).
  { intros H1 H2 H3. repeat split; auto. exists []. now rewrite app_nil_r. }
  destruct l as [|i k|i v|i v|i w|i|i|i| |w| | |]; simpl in Ho; try discriminate; simpl in Hs.
  - sc Hs. apply K; reflexivity.
  - sc Hs; apply K; simpl; rewrite ?recvs_app; simpl; rewrite ?app_nil_r; reflexivity.
  - sc Hs; apply K; simpl; rewrite ?recvs_app; simpl; rewrite ?app_nil_r; reflexivity.
  - assert (X : forall v, s' = send_poll s i w v -> recv s' = recv s /\ recvs (log s') = recvs (log s) /\ exists q, readyq s' = readyq s ++ q).
    { intros v ->. destruct (poll_same s i w v) as (H1 & _ & _ & H2 & _ & _ & _ & H3 & _). apply K; congruence. }
    destruct (h_pc (hs s i)) eqn:E; try discriminate; injection Hs as Hs; symmetry in Hs; eapply X; eauto.
  - assert (W : recv (wake_receiver s) = recv s /\ recvs (log (wake_receiver s)) = recvs (log s) /\ readyq (wake_receiver s) = readyq s).
    { destruct (wake_log2 s) as (k & Hl & _). pose proof (wake_same s) as H. rewrite Hl, recvs_app, recvs_wake, app_nil_r.
      split; [tauto|]. split; [reflexivity|]. unfold wake_receiver. destruct (wreg_wake (rwaker s)). reflexivity. }
    destruct (h_pc (hs s i)) as [| |v|v|v|v|d v|d v|x v|x v|v| |] eqn:E; try discriminate.
    + sc Hs; apply K; simpl; rewrite ?recvs_app; simpl; rewrite ?app_nil_r; reflexivity.
    + sc Hs; apply K; simpl; rewrite ?recvs_app; simpl; rewrite ?app_nil_r; reflexivity.
    + sc Hs; apply K; reflexivity.
    + fold (drop2 N s i d v) in Hs. destruct (drop2_same N s i d v) as (H1 & _ & _ & H2 & _).
      assert (HL : recvs (log (drop2 N s i d v)) = recvs (log s)).
      { unfold drop2. destruct (h_slot (hs s i)); [rewrite return_log, recvs_app|reflexivity].
        match goal with |- context [wq ?t] => destruct (wq t) end; simpl; now rewrite app_nil_r. }
      sc Hs; apply K; simpl; rewrite ?recvs_app; simpl; rewrite ?app_nil_r; auto.
    + sc Hs. apply K; reflexivity.
    + sc Hs. simpl. rewrite recvs_app. simpl. rewrite app_nil_r. repeat split. now exists [x].
    + sc Hs. destruct W as (W1 & W2 & W3). apply K; simpl; rewrite ?recvs_app; simpl; rewrite ?app_nil_r; auto.
    + sc Hs. destruct W as (W1 & W2 & W3). apply K; simpl; auto.
  - sc Hs; apply K; simpl; rewrite ?recvs_app; simpl; rewrite ?app_nil_r; reflexivity.
  - sc Hs. apply K; reflexivity.
Qed.

(** ** Where the slots are *)
Lemma free_all (s : chan) : creach N s -> length (freeq s) = N -> forall x, x < N -> In x (freeq s).
Proof.
  intros Hr HN x Hx. destruct (queues_nodup Hr) as (H1 & _ & _ & _).
  assert (X : incl (seq 0 N) (freeq s)).
  { apply NoDup_length_incl; [exact H1|rewrite seq_length; lia|]. intros y Hy. apply in_seq.
    pose proof (@place_bound _ N s y AtFree Hr Hy). lia. }
  apply X, in_seq. lia.
Qed.
Lemma ready_all (s : chan) : creach N s -> length (readyq s) = N -> forall x, x < N -> In x (readyq s).
Proof.
  intros Hr HN x Hx. destruct (queues_nodup Hr) as (_ & H1 & _ & _).
  assert (X : incl (seq 0 N) (readyq s)).
  { apply NoDup_length_incl; [exact H1|rewrite seq_length; lia|]. intros y Hy. apply in_seq.
    pose proof (@place_bound _ N s y AtReady Hr Hy). lia. }
  apply X, in_seq. lia.
Qed.
(** with every slot in one list, nobody else has one *)
Lemma all_free_none (s : chan) p x : creach N s -> length (freeq s) = N -> located s x p -> p = AtFree.
Proof.
  intros Hr HN Hp. apply (@place_unique _ N s x p AtFree Hr Hp).
  apply (free_all Hr HN). exact (place_bound _ _ Hr Hp).
Qed.
Lemma all_ready_none (s : chan) p x : creach N s -> length (readyq s) = N -> located s x p -> p = AtReady.
Proof.
  intros Hr HN Hp. apply (@place_unique _ N s x p AtReady Hr Hp).
  apply (ready_all Hr HN). exact (place_bound _ _ Hr Hp).
Qed.

(** no operation of a sender or of the receiver owns a slot *)
Definition at_rest (s : chan) : Prop := (forall j, hheld (hs s j) = None) /\ rheld (recv s) = None.

Lemma rest_partition (s : chan) : creach N s -> recv s <> RNone -> rdropped s = false -> at_rest s ->
  Permutation (freeq s ++ readyq s) (seq 0 N).
Proof.
  intros Hr Hn Hd [Hh Hv]. destruct (queues_nodup Hr) as (H1 & H2 & _ & _). apply NoDup_Permutation.
  - apply NoDup_app_intro; auto. intros x Hx Hy.
    pose proof (@place_unique _ N s x AtFree AtReady Hr Hx Hy). discriminate.
  - apply seq_NoDup.
  - intros x. rewrite in_app_iff, in_seq. split.
    + intros [Hx|Hx]; [pose proof (@place_bound _ N s x AtFree Hr Hx)|pose proof (@place_bound _ N s x AtReady Hr Hx)]; lia.
    + intros Hx. destruct (@place_exists _ N s x Hr) as [p Hp]; auto; [lia|].
      destruct p as [| |j|]; simpl in Hp; auto; [rewrite Hh in Hp; discriminate|rewrite Hv in Hp; discriminate].
Qed.

(** ** Receiving *)
Definition phase (R : list V) (s : chan) : Prop :=
  match recv s with
  | RPop None => readyq s <> [] /\ recvs (log s) = R
  | RRead None _ | RRet None _ _ => recvs (log s) = R
  | RIdle => exists v, recvs (log s) = R ++ [v]
  | _ => False
  end.
Lemma phase_step R (s s' : chan) l : phase R s -> step s l = Some s' -> l = LRStep \/ of_receiver l = false -> phase R s'.
Proof.
  intros HP Hs [->|Ho].
  - unfold phase in *. simpl in Hs. destruct (recv s) as [| |w|w|w x|w x v|w|w| |x| |] eqn:Er; try tauto; try discriminate.
    + destruct w; [tauto|]. destruct HP as [Hq HP]. destruct (readyq s); [tauto|]. injection Hs as <-. exact HP.
    + destruct w; [tauto|]. destruct (slots s x); injection Hs as <-; simpl; [exact HP|]. rewrite Er. exact HP.
    + destruct w; [tauto|]. injection Hs as <-. simpl. exists v. rewrite recvs_app. simpl. f_equal.
      rewrite return_log, recvs_app. rewrite HP. destruct (wq s); simpl; apply app_nil_r.
  - destruct (other_step _ _ Hs Ho) as (H1 & H2 & q & H3). unfold phase in *. rewrite H1, H2, H3.
    destruct (recv s) as [| |w|w|w x|w x v|w|w| |x| |]; auto. destruct w; auto. destruct HP as [Hq HP]. split; [|auto].
    destruct (readyq s); [tauto|discriminate].
Qed.
Lemma phase_run R ls : forall s s' : chan, phase R s -> run step s ls = Some s' ->
  Forall (fun l => l = LRStep \/ of_receiver l = false) ls -> phase R s'.
Proof.
  induction ls as [|l ls IH]; simpl; intros s s' HP Hs HF; [now injection Hs as <-|].
  destruct (step s l) as [s1|] eqn:E; [|discriminate]. inversion HF; subst. apply (IH s1); auto. eapply phase_step; eauto.
Qed.

Lemma log_grows_run ls : forall s s' : chan, creach N s -> run step s ls = Some s' -> exists evs, log s' = log s ++ evs.
Proof.
  induction ls as [|l ls IH]; simpl; intros s s' Hr Hs; [injection Hs as <-; exists []; now rewrite app_nil_r|].
  destruct (step s l) as [s1|] eqn:E; [|discriminate].
  destruct (@step_events V N _ _ _ (A_L (InvAll_reach Hr)) E) as (e1 & H1 & _).
  destruct (IH s1 s') as (e2 & H2); auto; [eapply reach_step; eauto|]. exists (e1 ++ e2). now rewrite H2, H1, app_assoc.
Qed.

(** ** After the receiver is gone *)
Definition late (s : chan) : Prop :=
  rdropped s = true /\ forall j, uncommitted (h_pc (hs s j)) = true /\ hheld (hs s j) = None.

Lemma late_frozen (s s' : chan) l : creach N s -> late s -> step s l = Some s' -> freeq s' = freeq s /\ late s'.
Proof.
  intros Hr [Hd Hj] Hs. pose proof (A_L (InvAll_reach Hr)) as HL.
  assert (Hd' : rdropped s' = true) by (eapply rdropped_mono; eauto).
  assert (U : forall k, uncommitted (h_pc (hs s' k)) = true) by (intros k; eapply late_step; eauto; apply Hj).
  assert (Hdr : dropping (recv s) = true) by (rewrite <- (L_drop HL); exact Hd).
  assert (K : freeq s' = freeq s -> (forall k, h_slot (hs s' k) = None \/ h_slot (hs s' k) = h_slot (hs s k)) -> freeq s' = freeq s /\ late s').
  { intros H1 H2. split; [exact H1|]. split; [exact Hd'|]. intros k. split; [apply U|].
    assert (E : forall h : hst V, uncommitted (h_pc h) = true -> hheld h = h_slot h).
    { intros h. unfold hheld. destruct (h_pc h) as [| |v|v|v|v|[?| |] v|[?| |] v|x v|x v|v| |]; simpl; auto; discriminate. }
    rewrite E by apply U. destruct (Hj k) as [Ha Hb]. rewrite E in Hb by exact Ha. destruct (H2 k) as [->| ->]; auto. }
  assert (E : forall k, h_slot (hs s k) = None).
  { intros k. destruct (Hj k) as [Ha Hb]. unfold hheld in Hb. destruct (h_pc (hs s k)) as [| |v|v|v|v|[?| |] v|[?| |] v|x v|x v|v| |]; simpl in *; auto; discriminate. }
  destruct l as [|i k|i v|i v|i w|i|i|i| |w| | |]; simpl in Hs.
  - destruct (recv s); discriminate.
  - sc Hs. apply K; [reflexivity|]. intros x. simpl. unfold upd. destruct (x =? k); auto.
  - sc Hs; apply K; try reflexivity; intros x; simpl; unfold upd; try destruct (x =? i) eqn:Ex; auto; simpl; left; apply E.
  - sc Hs; apply K; try reflexivity; intros x; simpl; unfold upd; destruct (x =? i) eqn:Ex; auto; simpl; left; apply E.
  - assert (X : forall v, s' = send_poll s i w v -> freeq s' = freeq s /\ late s').
    { intros v ->. unfold send_poll in *. rewrite Hd in *. apply K; [reflexivity|]. intros x. simpl. unfold upd. destruct (x =? i); auto. simpl. left. apply E. }
    destruct (h_pc (hs s i)) eqn:Ep; try discriminate; injection Hs as Hs; symmetry in Hs; eapply X; eauto.
  - destruct (Hj i) as [Hu _].
    destruct (h_pc (hs s i)) as [| |v|v|v|v|d v|d v|x v|x v|v| |] eqn:Ep; try discriminate.
    + rewrite Hd in Hs. sc Hs. apply K; [reflexivity|]. intros x. simpl. unfold upd. destruct (x =? i); auto. simpl. left. apply E.
    + sc Hs. apply K; [reflexivity|]. intros x. simpl. unfold upd. destruct (x =? i); auto. simpl. left. apply E.
    + rewrite E in Hs. sc Hs; apply K; try reflexivity; intros x; simpl; unfold upd; rewrite ?Nat.eqb_refl; destruct (x =? i); auto.
    + sc Hs. apply K.
      * simpl. unfold wake_receiver. destruct (wreg_wake (rwaker s)). reflexivity.
      * intros x. simpl. unfold wake_receiver. destruct (wreg_wake (rwaker s)). simpl. unfold upd. destruct (x =? i); auto. simpl. left. apply E.
  - sc Hs; apply K; try reflexivity; intros x; simpl; unfold upd; destruct (x =? i); auto; simpl; left; apply E.
  - sc Hs; apply K; try reflexivity; intros x; simpl; unfold upd; destruct (x =? i); auto; simpl; left; apply E.
  - destruct (recv s); discriminate.
  - destruct (recv s); discriminate.
  - destruct (recv s) as [| |w|w|w x|w x v|w|w| |x| |] eqn:Er; try discriminate; try (sc Hs; apply K; auto; fail).
    sc Hs; apply K; auto. intros k. simpl. unfold upd. destruct (Nat.eqb_spec k n) as [->|]; auto.
  - destruct (recv s); discriminate.
  - destruct (recv s); discriminate.
Qed.
Lemma late_frozen_run ls : forall s s' : chan, creach N s -> late s -> run step s ls = Some s' -> freeq s' = freeq s.
Proof.
  induction ls as [|l ls IH]; simpl; intros s s' Hr HL Hs; [now injection Hs as <-|].
  destruct (step s l) as [s1|] eqn:E; [|discriminate]. destruct (late_frozen l Hr HL E) as [H1 H2].
  rewrite <- H1. apply (IH s1); auto. eapply reach_step; eauto.
Qed.
End Q.
