(** Structural invariants of the channel model: wait-queue bookkeeping and slot ownership. *)
From Verif Require Import Base LTS WakerRegModel ChannelModel.
From Coq Require Import Sorting.Sorted.
Set Implicit Arguments.

Section Inv.
Context {V : Type} (N : nat).
Notation chan := (chan V).
Notation step := (@step V N).
Notation hst := (hst V).

(** * Local well-formedness of a sender handle *)
Definition hok (h : hst) : Prop :=
  match h_pc h with
  | SWait _ => h_link h <> LNone /\ (h_link h = LQueued -> h_slot h = None)
  | SDrop1 (DOk _) _ | SDrop2 (DOk _) _ => h_link h = LNone /\ h_slot h = None
  | SDrop1 _ _ => h_link h <> LPopped -> h_slot h = None
  | SDrop2 _ _ => h_link h = LNone
  | _ => h_link h = LNone /\ h_slot h = None
  end.

Definition dropping (r : rpc V) : bool :=
  match r with RDrain | RDrop _ | RWakeAll | RDead => true | _ => false end.

Record InvL (s : chan) : Prop := {
  L_nd : NoDup (wq s);
  L_in : forall j, In j (wq s) <-> h_link (hs s j) = LQueued;
  L_h : forall j, hok (hs s j);
  L_free : wq s <> [] -> freeq s = [];
  L_new : recv s = RNone -> s = chan_new;
  L_drop : rdropped s = dropping (recv s);
  L_pop : forall j v, h_pc (hs s j) = SWait v -> h_link (hs s j) = LPopped -> h_slot (hs s j) = None -> rdropped s = true
}.

Lemma InvL_new : InvL chan_new.
Proof.
  constructor; simpl; try constructor; try tauto; try discriminate; auto.
  all: cbn; try discriminate; auto.
Qed.

Ltac inv_some H := injection H as H; subst.
Ltac updc := unfold upd in *; repeat match goal with
  | H : context [Nat.eqb ?a ?b] |- _ => destruct (Nat.eqb_spec a b); subst
  | |- context [Nat.eqb ?a ?b] => destruct (Nat.eqb_spec a b); subst
  end.

(** frame: changes that keep links, slots, pcs' relevant parts *)
Lemma InvL_frame s s' :
  InvL s -> wq s' = wq s -> hs s' = hs s -> (freeq s' = freeq s \/ wq s = []) -> rdropped s' = rdropped s ->
  dropping (recv s') = dropping (recv s) -> recv s' <> RNone -> InvL s'.
Proof.
  intros [H1 H2 H3 H4 H5 H6 H7] E1 E2 E3 E4 E5 E6. constructor; rewrite ?E1, ?E2, ?E4, ?E5; auto; try congruence.
  intros Hw. destruct E3 as [->|E3]; [auto|congruence].
Qed.

(** frame: handle [j] changes to [h'], keeping its link *)
Lemma InvL_set_h s j h' :
  InvL s -> recv s <> RNone -> hok h' -> h_link h' = h_link (hs s j) ->
  (forall v, h_pc h' = SWait v -> h_link h' = LPopped -> h_slot h' = None -> rdropped s = true) ->
  InvL (set_h s j h').
Proof.
  intros [H1 H2 H3 H4 H5 H6 H7] Hr Hk Hl Hp. constructor; simpl; auto.
  - intros k. unfold upd. destruct (Nat.eqb_spec k j) as [->|]; [rewrite Hl|]; apply H2.
  - intros k. unfold upd. destruct (Nat.eqb_spec k j) as [->|]; auto.
  - congruence.
  - intros k v. unfold upd. destruct (Nat.eqb_spec k j) as [->|]; [apply Hp|apply H7].
Qed.

Lemma InvL_emit s e : InvL s -> recv s <> RNone -> InvL (emit s e).
Proof. intros H Hr. apply InvL_frame with (s := s); auto. Qed.

Lemma InvL_set_pc s j p :
  InvL s -> recv s <> RNone ->
  hok (mkH p (h_link (hs s j)) (h_slot (hs s j)) (h_waker (hs s j)) (h_woken (hs s j)) (h_seq (hs s j))) ->
  (forall v, p = SWait v -> h_link (hs s j) = LPopped -> h_slot (hs s j) = None -> rdropped s = true) ->
  InvL (set_pc s j p).
Proof. intros H Hr Hk Hp. unfold set_pc. apply InvL_set_h; auto. Qed.

Lemma hok_idle h : hok h -> (forall v, h_pc h <> SWait v) -> (forall d v, h_pc h <> SDrop1 d v) ->
  (forall d v, h_pc h <> SDrop2 d v) -> h_link h = LNone /\ h_slot h = None.
Proof.
  unfold hok. intros H H1 H2 H3. destruct (h_pc h) as [| | | | |v|d v|d v| | | | |]; auto.
  - now elim (H1 v).
  - now elim (H2 d v).
  - now elim (H3 d v).
Qed.

Lemma remove_notin j l : ~ In j l -> remove Nat.eq_dec j l = l.
Proof. apply notin_remove. Qed.

Lemma NoDup_remove_eq c l : NoDup l -> NoDup (remove Nat.eq_dec c l).
Proof.
  induction l as [|x l IH]; simpl; intros H; [constructor|]. inversion H; subst.
  destruct (Nat.eq_dec c x); [auto|]. constructor; [|auto]. intros Hin. apply in_remove in Hin. tauto.
Qed.

(** returning a slot *)
Lemma InvL_return s x : InvL s -> recv s <> RNone -> InvL (return_slot N s x).
Proof.
  intros HL Hr. unfold return_slot. destruct (wq s) as [|j q] eqn:Eq.
  - apply InvL_frame with (s := s); auto.
  - pose proof HL as [H1 H2 H3 H4 H5 H6 H7]. rewrite Eq in *.
    assert (Hj : h_link (hs s j) = LQueued) by (apply H2; now left).
    inversion H1 as [|? ? Hni Hnd]; subst.
    constructor; simpl; auto.
    + intros k. unfold upd. destruct (Nat.eqb_spec k j) as [->|Hne]; simpl.
      * split; [intros Hin; contradiction|discriminate].
      * rewrite <- H2. split; [now right|intros [->|?]; [congruence|auto]].
    + intros k. unfold upd. destruct (Nat.eqb_spec k j) as [->|Hne]; auto.
      specialize (H3 j). unfold hok in *. cbn [h_pc h_link h_slot].
      destruct (h_pc (hs s j)) as [| | | | | |d v|d v| | | | |]; try (destruct H3; congruence).
      * split; [discriminate|]. intros; discriminate.
      * destruct d; [destruct H3; congruence| |]; intros X; congruence.
      * destruct d; [destruct H3; congruence| |]; congruence.
    + intros _. apply H4. congruence.
    + congruence.
    + intros k v. unfold upd. destruct (Nat.eqb_spec k j) as [->|Hne]; simpl; [discriminate|]. apply H7.
Qed.

Lemma return_recv (s : chan) x : recv (return_slot N s x) = recv s.
Proof. unfold return_slot. destruct (wq s); reflexivity. Qed.
Lemma return_rdropped (s : chan) x : rdropped (return_slot N s x) = rdropped s.
Proof. unfold return_slot. destruct (wq s); reflexivity. Qed.
Lemma return_pc (s : chan) x j : h_pc (hs (return_slot N s x) j) = h_pc (hs s j).
Proof.
  unfold return_slot. destruct (wq s) as [|k q]; [reflexivity|]. simpl. unfold upd.
  destruct (Nat.eqb_spec j k) as [->|]; reflexivity.
Qed.
Lemma return_other (s : chan) x j : ~ In j (wq s) -> hs (return_slot N s x) j = hs s j.
Proof.
  unfold return_slot. destruct (wq s) as [|k q]; [reflexivity|]. simpl. intros Hn. unfold upd.
  destruct (Nat.eqb_spec j k) as [->|]; [exfalso; tauto|reflexivity].
Qed.

Lemma recv_alive (s : chan) j : InvL s -> h_pc (hs s j) <> HNone -> recv s <> RNone.
Proof. intros HL Hp Hr. apply (L_new HL) in Hr. subst s. now apply Hp. Qed.

Lemma InvL_poll s j w v : InvL s -> h_pc (hs s j) = SNew v \/ h_pc (hs s j) = SWait v -> InvL (send_poll s j w v).
Proof.
  intros HL Hp.
  assert (Hr : recv s <> RNone) by (apply recv_alive with (j := j); [exact HL|destruct Hp; congruence]).
  pose proof (L_h HL j) as Hk. unfold send_poll.
  destruct (rdropped s) eqn:Ed.
  { apply InvL_set_pc; auto; try (intros; congruence). unfold hok in *. cbn.
    destruct Hp as [E|E]; rewrite E in Hk.
    - intros _. apply Hk.
    - destruct Hk as [Ha Hb]. destruct (h_link (hs s j)); intros X; try congruence. auto. }
  destruct (h_link (hs s j)) eqn:El.
  - assert (Hsl : h_slot (hs s j) = None) by (unfold hok in Hk; destruct Hp as [E|E]; rewrite E in Hk; destruct Hk; congruence).
    assert (Hpush : freeq s = [] ->
      InvL (mkC (freeq s) (readyq s) (slots s) (wq s ++ [j]) (rdropped s) (nsend s) (rwaker s)
                (upd (hs s) j (mkH (SWait v) LQueued (h_slot (hs s j)) w false (seqno s)))
                (recv s) (r_woken s) (bug s) (S (seqno s)) (log s))).
    { intros Hf. pose proof HL as [H1 H2 H3 H4 H5 H6 H7].
      assert (Hn : ~ In j (wq s)) by (rewrite H2; congruence).
      constructor; simpl; auto.
      - now apply NoDup_snoc.
      - intros k. rewrite in_app_iff. simpl. unfold upd. destruct (Nat.eqb_spec k j) as [->|Hne]; simpl.
        + tauto.
        + rewrite H2. intuition congruence.
      - intros k. unfold upd. destruct (Nat.eqb_spec k j) as [->|Hne]; auto. unfold hok; simpl. split; [discriminate|auto].
      - congruence.
      - intros k u. unfold upd. destruct (Nat.eqb_spec k j) as [->|Hne]; simpl; [discriminate|apply H7]. }
    destruct (wq s) as [|k q] eqn:Eq; [destruct (freeq s) as [|x f] eqn:Ef|].
    + specialize (Hpush eq_refl). cbn. rewrite ?Ef, ?Eq. exact Hpush.
    + apply InvL_set_pc.
      * apply InvL_frame with (s := s); auto.
      * exact Hr.
      * simpl. rewrite El, Hsl. unfold hok. simpl. auto.
      * intros; discriminate.
    + assert (Hf : freeq s = []) by (apply (L_free HL); congruence). specialize (Hpush Hf).
      cbn. rewrite ?Hf, ?Eq. rewrite ?Eq, ?Hf in Hpush. exact Hpush.
  - apply InvL_set_pc; auto; [|intros; congruence].
    unfold hok in *. cbn. rewrite El. destruct Hp as [E|E]; rewrite E in Hk; destruct Hk as [Ha Hb]; rewrite El in *.
    + discriminate.
    + auto.
  - pose proof HL as [H1 H2 H3 H4 H5 H6 H7]. constructor; simpl; auto.
    + intros k. unfold upd. destruct (Nat.eqb_spec k j) as [->|Hne]; simpl; [|apply H2].
      rewrite H2, El. split; discriminate.
    + intros k. unfold upd. destruct (Nat.eqb_spec k j) as [->|Hne]; simpl; [|apply H3].
      unfold hok; simpl. destruct (h_slot (hs s j)); simpl; auto.
    + congruence.
    + intros k u. unfold upd. destruct (Nat.eqb_spec k j) as [->|Hne]; simpl; [|apply H7].
      destruct (h_slot (hs s j)); discriminate.
Qed.

Lemma wake_same (s : chan) : wq (wake_receiver s) = wq s /\ hs (wake_receiver s) = hs s /\ freeq (wake_receiver s) = freeq s /\
  readyq (wake_receiver s) = readyq s /\ slots (wake_receiver s) = slots s /\
  rdropped (wake_receiver s) = rdropped s /\ recv (wake_receiver s) = recv s /\ bug (wake_receiver s) = bug s /\
  nsend (wake_receiver s) = nsend s /\ seqno (wake_receiver s) = seqno s.
Proof. unfold wake_receiver. destruct (wreg_wake (rwaker s)). simpl. repeat split. Qed.

Lemma reg_same (s : chan) w : wq (register_receiver s w) = wq s /\ hs (register_receiver s w) = hs s /\ freeq (register_receiver s w) = freeq s /\
  readyq (register_receiver s w) = readyq s /\ slots (register_receiver s w) = slots s /\
  rdropped (register_receiver s w) = rdropped s /\ recv (register_receiver s w) = recv s /\ bug (register_receiver s w) = bug s /\
  nsend (register_receiver s w) = nsend s /\ seqno (register_receiver s w) = seqno s.
Proof. unfold register_receiver. destruct (wreg_register (rwaker s) w). simpl. repeat split. Qed.

Lemma InvL_wake s : InvL s -> recv s <> RNone -> InvL (wake_receiver s).
Proof.
  intros H Hr. destruct (wake_same s) as (E1 & E2 & E3 & _ & _ & E4 & E5 & _).
  apply InvL_frame with (s := s); auto; congruence.
Qed.

Ltac htac := simpl; auto; try (intros; discriminate); try (intros; congruence); try (unfold hok; simpl; auto; fail);
  try (apply InvL_emit; auto; fail);
  try match goal with HL : InvL ?s |- InvL ?s' => lazymatch s' with s => exact HL | _ => apply InvL_frame with (s := s); simpl; auto; fail end end.

Lemma InvL_step s l s' : InvL s -> step s l = Some s' -> InvL s'.
Proof.
  intros HL Hs. destruct l as [|j k|j v|j v|j w|j|j|j| |w| | |]; simpl in Hs.
  - (* split *)
    destruct (recv s) eqn:Er; try discriminate. injection Hs as <-.
    pose proof (L_new HL Er) as ->. constructor; simpl; auto; try congruence.
    + constructor.
    + intros j. unfold upd. destruct (Nat.eqb_spec j 0); simpl; split; try tauto; discriminate.
    + intros j. unfold upd, hok. destruct (Nat.eqb_spec j 0); simpl; auto.
    + intros j v. unfold upd. destruct (Nat.eqb_spec j 0); simpl; discriminate.
  - (* clone *)
    destruct (h_pc (hs s j)) eqn:Ej; try discriminate. destruct (h_pc (hs s k)) eqn:Ek; try discriminate.
    injection Hs as <-.
    assert (Hr : recv s <> RNone) by (apply recv_alive with (j := j); [exact HL|congruence]).
    assert (Hl : h_link (hs s k) = LNone) by (pose proof (L_h HL k) as H; unfold hok in H; rewrite Ek in H; apply H).
    apply InvL_frame with (s := set_h s k (mkH HIdle LNone None 0 false 0)); auto.
    apply InvL_set_h; htac.
  - (* try_send *)
    destruct (h_pc (hs s j)) eqn:Ej; try discriminate.
    assert (Hr : recv s <> RNone) by (apply recv_alive with (j := j); [exact HL|congruence]).
    assert (Hl : h_link (hs s j) = LNone /\ h_slot (hs s j) = None) by (pose proof (L_h HL j) as H; unfold hok in H; rewrite Ej in H; apply H).
    destruct (wq s); injection Hs as <-.
    + apply InvL_set_pc; htac.
    + apply InvL_emit; [apply InvL_emit|]; auto.
  - (* send *)
    destruct (h_pc (hs s j)) eqn:Ej; try discriminate. injection Hs as <-.
    assert (Hr : recv s <> RNone) by (apply recv_alive with (j := j); [exact HL|congruence]).
    assert (Hl : h_link (hs s j) = LNone /\ h_slot (hs s j) = None) by (pose proof (L_h HL j) as H; unfold hok in H; rewrite Ej in H; apply H).
    apply InvL_set_pc; htac.
  - (* poll *)
    destruct (h_pc (hs s j)) eqn:Ej; try discriminate; injection Hs as <-; apply InvL_poll; auto.
  - (* step *)
    assert (Hr : recv s <> RNone).
    { apply recv_alive with (j := j); [exact HL|]. intros E. rewrite E in Hs. discriminate. }
    pose proof (L_h HL j) as Hk. unfold hok in Hk.
    destruct (h_pc (hs s j)) as [| |v|v|v|v|d v|d v|x v|x v|v| |] eqn:Ej; try discriminate.
    + destruct (rdropped s); injection Hs as <-.
      * unfold finish. apply InvL_emit; [|auto]. apply InvL_set_pc; htac.
      * apply InvL_set_pc; htac.
    + destruct (freeq s) as [|x q] eqn:Ef; injection Hs as <-.
      * unfold finish. apply InvL_emit; [|auto]. apply InvL_set_pc; htac.
      * apply InvL_set_pc; [|exact Hr|unfold hok; simpl; auto|intros; discriminate].
        apply InvL_frame with (s := s); auto. simpl. right.
        destruct (wq s) eqn:Eq; [reflexivity|]. assert (freeq s = []) by (apply (L_free HL); congruence). congruence.
    + injection Hs as <-. pose proof HL as [H1 H2 H3 H4 H5 H6 H7]. constructor; simpl; auto.
      * now apply NoDup_remove_eq.
      * intros k. unfold upd. destruct (Nat.eqb_spec k j) as [->|Hne]; simpl.
        -- split; [intros X; now apply remove_In in X|discriminate].
        -- rewrite <- H2. split; [intros X; apply in_remove in X; tauto|intros X; now apply in_in_remove].
      * intros k. unfold upd. destruct (Nat.eqb_spec k j) as [->|Hne]; auto. unfold hok; simpl.
        destruct d; auto. destruct Hk; auto.
      * intros Hw. apply H4. intros E. rewrite E in Hw. apply Hw. reflexivity.
      * congruence.
      * intros k u. unfold upd. destruct (Nat.eqb_spec k j) as [->|Hne]; simpl; [discriminate|apply H7].
    + assert (Hlk : h_link (hs s j) = LNone) by (destruct d; [apply Hk|exact Hk|exact Hk]).
      set (s1 := set_h s j (mkH (SDrop2 d v) (h_link (hs s j)) None (h_waker (hs s j)) (h_woken (hs s j)) (h_seq (hs s j)))) in *.
      assert (HL1 : InvL s1).
      { apply InvL_set_h; [exact HL|exact Hr| |reflexivity|intros; discriminate]. unfold hok; simpl. rewrite Hlk. destruct d; auto. }
      set (s2 := match h_slot (hs s j) with Some x => return_slot N s1 x | None => s1 end) in *.
      assert (HL2 : InvL s2) by (subst s2; destruct (h_slot (hs s j)); [apply InvL_return; auto|exact HL1]).
      assert (Hr2 : recv s2 <> RNone) by (subst s2; destruct (h_slot (hs s j)); [rewrite return_recv|]; exact Hr).
      assert (Hh2 : hs s2 j = hs s1 j).
      { subst s2. destruct (h_slot (hs s j)); [|reflexivity]. apply return_other.
        rewrite (L_in HL1). simpl. rewrite upd_same. simpl. congruence. }
      assert (Hl2 : h_link (hs s2 j) = LNone /\ h_slot (hs s2 j) = None).
      { rewrite Hh2. simpl. rewrite upd_same. simpl. auto. }
      destruct d as [x| |]; injection Hs as <-; unfold finish.
      * apply InvL_set_pc; auto; try (intros; discriminate); try (unfold hok; simpl; exact Hl2).
      * apply InvL_emit; [|auto]. apply InvL_set_pc; auto; try (intros; discriminate); try (unfold hok; simpl; exact Hl2).
      * apply InvL_emit; [|auto]. apply InvL_set_pc; auto; try (intros; discriminate); try (unfold hok; simpl; exact Hl2).
    + injection Hs as <-. apply InvL_set_pc; [apply InvL_frame with (s := s); auto|exact Hr|unfold hok; simpl; auto|intros; discriminate].
    + injection Hs as <-. apply InvL_set_pc; [apply InvL_frame with (s := s); auto|exact Hr|unfold hok; simpl; auto|intros; discriminate].
    + injection Hs as <-. unfold finish. destruct (wake_same s) as (E1 & E2 & _ & _ & _ & _ & E5 & _).
      apply InvL_emit; [|simpl; congruence]. apply InvL_set_pc; [apply InvL_wake; auto|congruence| |intros; discriminate].
      rewrite E2. unfold hok; simpl; auto.
    + injection Hs as <-. destruct (wake_same s) as (E1 & E2 & _ & _ & _ & _ & E5 & _).
      apply InvL_set_pc; [apply InvL_wake; auto|congruence| |intros; discriminate].
      rewrite E2. unfold hok; simpl; auto.
  - (* cancel *)
    assert (Hr : recv s <> RNone).
    { apply recv_alive with (j := j); [exact HL|]. intros E. rewrite E in Hs. discriminate. }
    pose proof (L_h HL j) as Hk. unfold hok in Hk.
    destruct (h_pc (hs s j)) as [| |v|v|v|v|d v|d v|x v|x v|v| |] eqn:Ej; try discriminate; injection Hs as <-.
    + unfold finish. apply InvL_emit; [|auto]. apply InvL_set_pc; htac.
    + apply InvL_set_pc; [exact HL|exact Hr| |intros; discriminate]. unfold hok; simpl.
      destruct Hk as [Ha Hb]. destruct (h_link (hs s j)); auto; congruence.
  - (* drop sender *)
    destruct (h_pc (hs s j)) eqn:Ej; try discriminate. injection Hs as <-.
    assert (Hr : recv s <> RNone) by (apply recv_alive with (j := j); [exact HL|congruence]).
    pose proof (L_h HL j) as Hk. unfold hok in Hk. rewrite Ej in Hk.
    apply InvL_set_pc; [apply InvL_frame with (s := s); auto|exact Hr| |].
    + unfold hok; simpl. destruct (pred (nsend s) =? 0); auto.
    + intros v E. destruct (pred (nsend s) =? 0); discriminate.
  - destruct (recv s) eqn:Er; try discriminate. injection Hs as <-.
    apply InvL_frame with (s := s); simpl; auto; try rewrite Er; auto; discriminate.
  - assert (Hr : recv s = RIdle \/ exists w', recv s = RSleep w') by (destruct (recv s); try discriminate; eauto).
    assert (s' = set_recv s (RReg w)) by (destruct Hr as [E|[w' E]]; rewrite E in Hs; congruence). subst s'.
    apply InvL_frame with (s := s); simpl; auto; [|discriminate].
    destruct Hr as [E|[w' E]]; rewrite E; reflexivity.
  - (* receiver steps *)
    destruct (recv s) as [| |w|w|w x|w x v|w|w| |x| |] eqn:Er; try discriminate.
    + injection Hs as <-. destruct (reg_same s w) as (E1 & E2 & E3 & _ & _ & E4 & _).
      apply InvL_frame with (s := s); simpl; auto; [now rewrite Er|discriminate].
    + destruct (readyq s); injection Hs as <-; apply InvL_frame with (s := s); simpl; auto; try rewrite Er; auto; discriminate.
    + destruct (slots s x); injection Hs as <-; apply InvL_frame with (s := s); simpl; auto; try rewrite Er; auto; discriminate.
    + injection Hs as <-. apply InvL_emit; [|simpl; discriminate].
      assert (HL1 : InvL (return_slot N s x)) by (apply InvL_return; congruence).
      apply InvL_frame with (s := return_slot N s x); simpl; auto; [|discriminate].
      now rewrite return_recv, Er.
    + destruct (nsend s); [|destruct w]; injection Hs as <-;
        (apply InvL_frame with (s := s); simpl; auto; try rewrite Er; auto; discriminate).
    + destruct (rev (readyq s)); injection Hs as <-; apply InvL_frame with (s := s); simpl; auto; try rewrite Er; auto; discriminate.
    + destruct (slots s x); injection Hs as <-; apply InvL_frame with (s := s); simpl; auto; try rewrite Er; auto; discriminate.
    + destruct (wq s) as [|j q] eqn:Eq; injection Hs as <-.
      * apply InvL_frame with (s := s); simpl; auto; [rewrite Er; auto|discriminate].
      * pose proof HL as [H1 H2 H3 H4 H5 H6 H7]. rewrite Eq in *.
        assert (Hj : h_link (hs s j) = LQueued) by (apply H2; now left).
        inversion H1 as [|? ? Hni Hnd]; subst.
        constructor; simpl; auto.
        -- intros k. unfold upd. destruct (Nat.eqb_spec k j) as [->|Hne]; simpl.
           ++ split; [intros Hin; contradiction|discriminate].
           ++ rewrite <- H2. split; [now right|intros [->|?]; [congruence|auto]].
        -- intros k. unfold upd. destruct (Nat.eqb_spec k j) as [->|Hne]; auto.
           specialize (H3 j). unfold hok in *. cbn [h_pc h_link h_slot].
           destruct (h_pc (hs s j)) as [| | | | | |d v|d v| | | | |]; try (destruct H3; congruence).
           ++ split; [discriminate|]. intros; discriminate.
           ++ destruct d; [destruct H3; congruence| |]; intros X; congruence.
           ++ destruct d; [destruct H3; congruence| |]; congruence.
        -- intros _. apply H4. congruence.
        -- congruence.
        -- intros k v _ _ _. rewrite H6, Er. reflexivity.
  - destruct (recv s) eqn:Er; try discriminate. injection Hs as <-.
    apply InvL_frame with (s := s); simpl; auto; try rewrite Er; auto; discriminate.
  - destruct (recv s) eqn:Er; try discriminate. injection Hs as <-.
    destruct HL as [H1 H2 H3 H4 H5 H6 H7]. constructor; simpl; auto. discriminate.
Qed.

Lemma InvL_reach s : creach N s -> InvL s.
Proof. apply reach_inv; [apply InvL_new|apply InvL_step]. Qed.
End Inv.
