(** The channel of ChannelModel.v as a component: its futures are the receiver's [recv] ([None]) and the senders'
    [send] ([Some j]). *)
From Verif Require Import Base LTS WakerRegModel ChannelModel ChannelSpec ChannelInv ChannelTrace ChannelProofs ChannelFinal ComposeModel ComposeProofs.
Set Implicit Arguments.

Section Chan.
Context {V : Type} (N : nat).
Implicit Types s : chan V.

(** channel.rs 621-640: the waker a [recv] was polled with *)
Definition recv_waker (r : rpc V) : option nat :=
  match r with
  | RReg w | RSleep w => Some w
  | RPop o | RRead o _ | RRet o _ _ | RChk o => o
  | _ => None
  end.

Definition chan_owner s (f : option nat) : option nat :=
  match f with
  | None => recv_waker (recv s)
  | Some j => match h_pc (hs s j) with SWait _ => Some (h_waker (hs s j)) | _ => None end
  end.
Definition chan_mid s (f : option nat) : bool :=
  match f with
  | None => match recv s with RSleep _ => false | _ => true end
  | Some _ => false
  end.
Definition chan_woken s (f : option nat) : bool :=
  match f with
  | None => match recv s with RReg _ => false | _ => r_woken s end
  | Some j => match h_link (hs s j) with LPopped => true | _ => false end
  end.
(** the wakers called by an event: the registered one (357, 544, 625), or the one in the link popped from the
    wait queue (155-176, 688-690) *)
Definition event_wakes s (e : event V) : list nat :=
  match e with EWakeR w => [w] | EHand j _ | EWakeS j => [h_waker (hs s j)] | _ => [] end.
Definition chan_wakes s (l : label V) : list nat :=
  match step N s l with
  | Some s' => flat_map (event_wakes s) (skipn (length (log s)) (log s'))
  | None => []
  end.
Definition chan_start (l : label V) : option (option nat * nat) :=
  match l with LRecv w => Some (None, w) | LPoll j w => Some (Some j, w) | _ => None end.

Definition opt_eq : forall a b : option nat, {a = b} + {a <> b}.
Proof. decide equality. apply Nat.eq_dec. Defined.

Definition chan_comp : component (chan V) (label V) (option nat) :=
  mkComp opt_eq chan_new (step N) (fun _ _ => True) chan_start chan_owner chan_mid chan_woken chan_wakes.

Lemma skipn_log (A : Type) (l es : list A) : skipn (length l) (l ++ es) = es.
Proof. rewrite skipn_app, Nat.sub_diag, skipn_all. reflexivity. Qed.

Lemma emits_wakes s l s' e t : step N s l = Some s' -> emits s s' e -> In t (event_wakes s e) -> In t (chan_wakes s l).
Proof.
  intros Hs (es & El & Hin) Ht. unfold chan_wakes. rewrite Hs, El, skipn_log. apply in_flat_map. eauto.
Qed.

Lemma chan_kreach s : kreach chan_comp s -> creach N s.
Proof. apply greach_reach. Qed.

Ltac crush Hs := repeat match type of Hs with
  | context [match ?x with _ => _ end] => destruct x eqn:?; try discriminate
  end.

(** what a step does to a handle's waker, link and pending send *)
Definition same_h (h h' : hst V) : Prop := h_waker h' = h_waker h /\ h_link h' = h_link h /\ h_pc h' = h_pc h.
Definition popped_h (h h' : hst V) : Prop := h_waker h' = h_waker h /\ h_link h' = LPopped /\ h_pc h' = h_pc h.
Definition idle_pc (p : hpc V) : Prop := match p with SWait _ => False | _ => True end.

Lemma set_pc_h s j p k : hs (set_pc s j p) k = if Nat.eqb k j then mkH p (h_link (hs s j)) (h_slot (hs s j)) (h_waker (hs s j)) (h_woken (hs s j)) (h_seq (hs s j)) else hs s k.
Proof. reflexivity. Qed.

Lemma return_slot_h s x k : same_h (hs s k) (hs (return_slot N s x) k) \/
  (popped_h (hs s k) (hs (return_slot N s x) k) /\ log (return_slot N s x) = log s ++ [EHand k x]).
Proof.
  unfold return_slot. destruct (wq s) as [|j q]; simpl; [left; repeat split|]. unfold upd. destruct (Nat.eqb_spec k j) as [-> |].
  - right. repeat split.
  - left. repeat split.
Qed.
Lemma return_slot_log s x : exists es, log (return_slot N s x) = log s ++ es.
Proof. unfold return_slot. destruct (wq s); simpl; [exists []; now rewrite app_nil_r|eauto]. Qed.
Lemma wake_receiver_h s : hs (wake_receiver s) = hs s.
Proof. unfold wake_receiver. destruct (wreg_wake (rwaker s)). reflexivity. Qed.
Lemma register_receiver_h s w : hs (register_receiver s w) = hs s.
Proof. unfold register_receiver. destruct (wreg_register (rwaker s) w). reflexivity. Qed.

(** every step keeps a handle as it is, or pops its link and wakes it, or leaves it without pending send, or
    is a poll of it *)
Lemma handle_step s l s' k : step N s l = Some s' ->
  same_h (hs s k) (hs s' k) \/
  (popped_h (hs s k) (hs s' k) /\ exists x, emits s s' (EHand k x) \/ emits s s' (EWakeS k)) \/
  idle_pc (h_pc (hs s' k)) \/
  (exists w v, l = LPoll k w /\ h_pc (hs s' k) = SWait v /\
     ((h_link (hs s k) = LQueued /\ h_link (hs s' k) = LQueued /\ h_waker (hs s' k) = h_waker (hs s k) /\ (h_pc (hs s k) = SWait v \/ h_pc (hs s k) = SNew v)) \/
      (h_link (hs s' k) = LQueued /\ h_waker (hs s' k) = w))).
Proof.
  intros Hs. destruct l as [|j k0|j v|j v|j w|j|j|j| |w| | |]; cbn [step] in Hs.
  - crush Hs. injection Hs as <-. simpl. unfold upd. destruct (Nat.eqb_spec k 0) as [-> |]; [right; right; left; exact I|left; repeat split].
  - crush Hs. injection Hs as <-. simpl. unfold upd. destruct (Nat.eqb_spec k k0) as [-> |]; [right; right; left; exact I|left; repeat split].
  - crush Hs; injection Hs as <-; simpl; [|left; repeat split]. unfold upd. destruct (Nat.eqb_spec k j) as [-> |]; [right; right; left; exact I|left; repeat split].
  - crush Hs; injection Hs as <-; simpl. unfold upd. destruct (Nat.eqb_spec k j) as [-> |]; [right; right; left; exact I|left; repeat split].
  - assert (G : forall v, (h_pc (hs s j) = SWait v \/ h_pc (hs s j) = SNew v) -> s' = send_poll s j w v ->
      same_h (hs s k) (hs s' k) \/ idle_pc (h_pc (hs s' k)) \/
      (k = j /\ h_pc (hs s' k) = SWait v /\
       ((h_link (hs s k) = LQueued /\ h_link (hs s' k) = LQueued /\ h_waker (hs s' k) = h_waker (hs s k) /\ (h_pc (hs s k) = SWait v \/ h_pc (hs s k) = SNew v)) \/
        (h_link (hs s' k) = LQueued /\ h_waker (hs s' k) = w)))).
    { intros v Hp ->. unfold send_poll. destruct (Nat.eqb_spec k j) as [-> |Hk].
      - destruct (rdropped s); [right; left; simpl; rewrite upd_same; exact I|].
        destruct (h_link (hs s j)) eqn:El.
        + destruct (wq s); [destruct (freeq s)|]; simpl; rewrite upd_same; simpl; first [right; left; exact I|right; right; auto 8].
        + right. right. simpl. rewrite upd_same. simpl. auto 8.
        + right. left. simpl. rewrite upd_same. exact I.
      - left. destruct (rdropped s); [simpl; rewrite upd_other by assumption; repeat split|].
        destruct (h_link (hs s j)) eqn:El.
        + destruct (wq s); [destruct (freeq s)|]; simpl; rewrite upd_other by assumption; repeat split.
        + simpl. rewrite upd_other by assumption; repeat split.
        + simpl. rewrite upd_other by assumption; repeat split. }
    destruct (h_pc (hs s j)) eqn:Ep; try discriminate; injection Hs as Hs;
      (destruct (G v ltac:(auto) (eq_sym Hs)) as [X|[X|(-> & X & Y)]]; [auto|auto|right; right; right; exists w, v; auto]).
  - destruct (h_pc (hs s j)) as [| |v|v|v|v|d v|d v|x v|x v|v| |] eqn:Ep; try discriminate.
    + destruct (rdropped s); injection Hs as <-; simpl; unfold upd; (destruct (Nat.eqb_spec k j) as [-> |]; [right; right; left; exact I|left; repeat split]).
    + destruct (freeq s); injection Hs as <-; simpl; unfold upd; (destruct (Nat.eqb_spec k j) as [-> |]; [right; right; left; exact I|left; repeat split]).
    + injection Hs as <-; simpl; unfold upd; (destruct (Nat.eqb_spec k j) as [-> |]; [right; right; left; exact I|left; repeat split]).
    + set (s1 := set_h s j _) in Hs. set (s2 := match h_slot (hs s j) with Some x => return_slot N s1 x | None => s1 end) in Hs.
      assert (H1 : same_h (hs s k) (hs s1 k)).
      { subst s1. simpl. unfold upd. destruct (Nat.eqb_spec k j) as [-> |]; repeat split. simpl. congruence. }
      assert (H2 : same_h (hs s1 k) (hs s2 k) \/ popped_h (hs s1 k) (hs s2 k) /\ exists x, log s2 = log s1 ++ [EHand k x]).
      { subst s2. destruct (h_slot (hs s j)); [|left; repeat split]. destruct (return_slot_h s1 n k) as [X|[X Y]]; eauto. }
      assert (H3 : hs s' k = if Nat.eqb k j then hs s' k else hs s2 k).
      { destruct d; injection Hs as <-; simpl; unfold upd; destruct (Nat.eqb k j); reflexivity. }
      assert (H4 : k = j -> idle_pc (h_pc (hs s' k))) by (intros ->; destruct d; injection Hs as <-; simpl; rewrite upd_same; exact I).
      assert (H5 : exists es, log s' = log s2 ++ es) by (destruct d; injection Hs as <-; simpl; [exists []; now rewrite app_nil_r|eauto|eauto]).
      destruct (Nat.eqb_spec k j) as [E|Hk]; [right; right; left; auto|].
      rewrite H3. destruct H2 as [H2|[H2 [x Hx]]]; [left|right; left].
      * destruct H1 as (A1 & A2 & A3), H2 as (B1 & B2 & B3). repeat split; congruence.
      * destruct H1 as (A1 & A2 & A3), H2 as (B1 & B2 & B3). split; [repeat split; congruence|]. exists x. left.
        destruct H5 as [es Hes]. exists (EHand k x :: es). split; [|now left]. rewrite Hes, Hx, <- app_assoc. reflexivity.
    + injection Hs as <-; simpl; unfold upd; (destruct (Nat.eqb_spec k j) as [-> |]; [right; right; left; exact I|left; repeat split]).
    + injection Hs as <-; simpl; unfold upd; (destruct (Nat.eqb_spec k j) as [-> |]; [right; right; left; exact I|left; repeat split]).
    + injection Hs as <-; simpl; rewrite wake_receiver_h; unfold upd; (destruct (Nat.eqb_spec k j) as [-> |]; [right; right; left; exact I|left; repeat split]).
    + injection Hs as <-; simpl; rewrite wake_receiver_h; unfold upd; (destruct (Nat.eqb_spec k j) as [-> |]; [right; right; left; exact I|left; repeat split]).
  - crush Hs; injection Hs as <-; simpl; unfold upd; (destruct (Nat.eqb_spec k j) as [-> |]; [right; right; left; exact I|left; repeat split]).
  - crush Hs; injection Hs as <-; simpl; unfold upd; (destruct (Nat.eqb_spec k j) as [-> |]; [right; right; left; simpl; try destruct (Nat.eqb _ _); exact I|left; repeat split]).
  - crush Hs; injection Hs as <-; left; repeat split.
  - crush Hs; injection Hs as <-; left; repeat split.
  - destruct (recv s) as [| |w|w|w x|w x v|w|w| |x| |] eqn:Er; try discriminate.
    + injection Hs as <-. simpl. rewrite register_receiver_h. left; repeat split.
    + destruct (readyq s); injection Hs as <-; left; repeat split.
    + destruct (slots s x); injection Hs as <-; left; repeat split.
    + injection Hs as <-. simpl. destruct (return_slot_h s x k) as [X|[X Y]]; [left; exact X|]. right. left. split; [exact X|]. exists x. left.
      exists [EHand k x; ERecv v]. split; [|now left]. simpl. rewrite Y, <- app_assoc. reflexivity.
    + destruct (nsend s); [injection Hs as <-; left; repeat split|]. destruct w; injection Hs as <-; left; repeat split.
    + destruct (rev (readyq s)); injection Hs as <-; left; repeat split.
    + destruct (slots s x); injection Hs as <-; left; repeat split.
    + destruct (wq s) as [|j q]; injection Hs as <-; [left; repeat split|]. simpl. unfold upd. destruct (Nat.eqb_spec k j) as [-> |]; [|left; repeat split].
      right. left. split; [repeat split|]. exists 0. right. exists [EWakeS j]. split; [reflexivity|now left].
  - crush Hs; injection Hs as <-; left; repeat split.
  - crush Hs; injection Hs as <-; left; repeat split.
Qed.

(** what a step does to the receiver *)
Lemma wake_receiver_woken s : r_woken (wake_receiver s) = true -> r_woken s = true \/ exists w, rwaker s = Some w /\ log (wake_receiver s) = log s ++ [EWakeR w].
Proof. unfold wake_receiver. destruct (rwaker s) as [w|]; simpl; eauto. Qed.
Lemma wake_receiver_recv s : recv (wake_receiver s) = recv s.
Proof. unfold wake_receiver. destruct (rwaker s) as [w|]; reflexivity. Qed.
Lemma return_slot_recv s x : recv (return_slot N s x) = recv s /\ r_woken (return_slot N s x) = r_woken s.
Proof. unfold return_slot. destruct (wq s); split; reflexivity. Qed.
Lemma register_not_woken s w : r_woken (register_receiver s w) = false.
Proof. unfold register_receiver. destruct (wreg_register (rwaker s) w). reflexivity. Qed.

Lemma receiver_step s l s' : step N s l = Some s' -> l <> LRStep -> (forall w, l <> LRecv w) ->
  (recv_waker (recv s') = None) \/
  (recv s' = recv s /\ (r_woken s' = true -> r_woken s = true \/ exists w, rwaker s = Some w /\ emits s s' (EWakeR w))).
Proof.
  intros Hs H1 H2. destruct l as [|j k0|j v|j v|j w|j|j|j| |w| | |]; cbn [step] in Hs; try congruence.
  - crush Hs. injection Hs as <-. left. reflexivity.
  - crush Hs. injection Hs as <-. right. auto.
  - crush Hs; injection Hs as <-; right; auto.
  - crush Hs; injection Hs as <-; right; auto.
  - assert (G : forall v, recv (send_poll s j w v) = recv s /\ r_woken (send_poll s j w v) = r_woken s).
    { intros v. unfold send_poll. destruct (rdropped s); [split; reflexivity|]. destruct (h_link (hs s j)); [|split; reflexivity|split; reflexivity].
      destruct (wq s); [destruct (freeq s)|]; split; reflexivity. }
    destruct (h_pc (hs s j)) eqn:Ep; try discriminate; injection Hs as <-; right; destruct (G v) as [-> ->]; auto.
  - destruct (h_pc (hs s j)) as [| |v|v|v|v|d v|d v|x v|x v|v| |] eqn:Ep; try discriminate.
    + destruct (rdropped s); injection Hs as <-; right; auto.
    + destruct (freeq s); injection Hs as <-; right; auto.
    + injection Hs as <-; right; auto.
    + right. set (s1 := set_h s j _) in Hs. set (s2 := match h_slot (hs s j) with Some x => return_slot N s1 x | None => s1 end) in Hs.
      assert (E : recv s2 = recv s /\ r_woken s2 = r_woken s) by (subst s2; destruct (h_slot (hs s j)) as [x|]; [destruct (return_slot_recv s1 x) as [-> ->]|]; split; reflexivity).
      destruct E as [E1 E2]. destruct d; injection Hs as <-; simpl; rewrite E1, E2; auto.
    + injection Hs as <-; right; auto.
    + injection Hs as <-; right; auto.
    + injection Hs as <-; right. simpl. rewrite wake_receiver_recv. split; [reflexivity|]. intros Hw. destruct (wake_receiver_woken s Hw) as [X|(w & X & Y)]; [auto|].
      right. exists w. split; [exact X|]. exists [EWakeR w; ESent j v]. split; [|now left]. simpl. rewrite Y, <- app_assoc. reflexivity.
    + injection Hs as <-; right. simpl. rewrite wake_receiver_recv. split; [reflexivity|]. intros Hw. destruct (wake_receiver_woken s Hw) as [X|(w & X & Y)]; [auto|].
      right. exists w. split; [exact X|]. exists [EWakeR w]. split; [|now left]. exact Y.
  - crush Hs; injection Hs as <-; right; auto.
  - crush Hs; injection Hs as <-; right; auto.
  - crush Hs; injection Hs as <-; left; reflexivity.
  - crush Hs; injection Hs as <-; left; reflexivity.
  - crush Hs; injection Hs as <-; left; reflexivity.
Qed.

Lemma receiver_own_step s s' t : step N s LRStep = Some s' -> recv_waker (recv s') = Some t ->
  recv_waker (recv s) = Some t /\
  (match recv s' with RReg _ => false | _ => r_woken s' end = true -> match recv s with RReg _ => false | _ => r_woken s end = true).
Proof.
  intros Hs Ho. cbn [step] in Hs. destruct (recv s) as [| |w|w|w x|w x v|w|w| |x| |] eqn:Er; try discriminate.
  - injection Hs as <-. simpl in *. rewrite register_not_woken. auto.
  - destruct (readyq s); injection Hs as <-; auto.
  - destruct (slots s x); injection Hs as <-; auto. simpl in *. rewrite Er in *. auto.
  - injection Hs as <-. discriminate.
  - destruct (nsend s); [injection Hs as <-; discriminate|]. destruct w; injection Hs as <-; auto; discriminate.
  - destruct (rev (readyq s)); injection Hs as <-; discriminate.
  - destruct (slots s x); injection Hs as <-; simpl in *; rewrite ?Er in *; discriminate.
  - destruct (wq s) as [|j q]; injection Hs as <-; simpl in *; rewrite ?Er in *; discriminate.
Qed.

Lemma recv_registered r w : recv_waker r = Some w -> (exists w', r = RReg w') \/ waiting_w r = Some w.
Proof. destruct r as [| |w1|[w1|]|[w1|] x|[w1|] x v|[w1|]|w1| |x| |]; simpl; intros E; try discriminate; eauto. Qed.

Lemma chan_contract : contract chan_comp.
Proof.
  constructor.
  - intros [j|]; reflexivity.
  - intros s l s' [j|] t Hr _ Hs Ho; simpl in *.
    + destruct (@handle_step s l s' j Hs) as [(X1 & X2 & X3)|[((X1 & X2 & X3) & _)|[X|(w & v & -> & X1 & [(X2 & X3 & X4 & X5)|[X2 X3]])]]].
      * rewrite X1, X3 in Ho. auto.
      * rewrite X1, X3 in Ho. auto.
      * destruct (h_pc (hs s' j)); try discriminate; contradiction.
      * rewrite X1, X4 in Ho. left. destruct X5 as [E|E]; rewrite E; [exact Ho|].
        apply chan_kreach in Hr. pose proof (ChannelInv.L_h (A_L (InvAll_reach Hr)) j) as Hk. unfold hok in Hk. rewrite E, X2 in Hk. exfalso. intuition congruence.
      * rewrite X1, X3 in Ho. injection Ho as ->. auto.
    + destruct l as [|i k0|i v|i v|i w|i|i|i| |w| | |];
        try (destruct (@receiver_step s _ s' Hs) as [X|[X _]]; [discriminate|discriminate|congruence|left; congruence]).
      * cbn [step] in Hs. destruct (recv s); try discriminate; injection Hs as <-; simpl in Ho; injection Ho as ->; auto.
      * left. exact (proj1 (@receiver_own_step s s' t Hs Ho)).
  - intros s l s' [j|] t Hr _ Hs Ho Hw; simpl in *.
    + destruct (@handle_step s l s' j Hs) as [(X1 & X2 & X3)|[((X1 & X2 & X3) & x & X4)|[X|(w & v & -> & X1 & [(X2 & X3 & X4 & X5)|[X2 X3]])]]].
      * rewrite X1, X3 in Ho. rewrite X2 in Hw. right. repeat split; auto. intros w Hl.
        destruct l as [|i k0|i v|i v|i w0|i|i|i| |w0| | |]; try discriminate. simpl in Hl. injection Hl as -> ->.
        (* a poll of a popped send never returns Pending *)
        cbn [step] in Hs. destruct (h_link (hs s j)) eqn:El; try discriminate. destruct (h_pc (hs s j)) as [| |v|v|v|v|d v|d v|x v|x v|v| |] eqn:Ep; try discriminate.
        injection Hs as <-. unfold send_poll in X3. rewrite El in X3. destruct (rdropped s); simpl in X3; rewrite upd_same in X3; discriminate.
      * left. rewrite X1, X3 in Ho. destruct (h_pc (hs s j)); try discriminate. injection Ho as <-.
        destruct X4 as [X4|X4]; eapply emits_wakes; eauto; now left.
      * destruct (h_pc (hs s' j)); try discriminate; contradiction.
      * rewrite X3 in Hw. discriminate.
      * rewrite X2 in Hw. discriminate.
    + destruct l as [|i k0|i v|i v|i w|i|i|i| |w| | |];
        try (destruct (@receiver_step s _ s' Hs) as [X|[X Y]]; [discriminate|discriminate|congruence|];
             rewrite X in Ho, Hw; assert (Z : r_woken s' = true) by (destruct (recv s); congruence);
             destruct (Y Z) as [A|(w0 & A & B)];
             [right; repeat split; [exact Ho|destruct (recv s); congruence|simpl; congruence]|];
             destruct (recv_registered _ Ho) as [[w' E]|E]; [rewrite E in Hw; discriminate|];
             apply chan_kreach in Hr; destruct (R_reg (X_R (InvX_reach Hr)) E) as [D|D];
             [rewrite A in D; injection D as ->; left; eapply emits_wakes; eauto; now left
             |right; repeat split; [exact Ho|destruct (recv s); congruence|simpl; congruence]]).
      * cbn [step] in Hs. destruct (recv s); try discriminate; injection Hs as <-; discriminate.
      * right. destruct (@receiver_own_step s s' t Hs Ho) as [A B]. repeat split; auto. discriminate.
Qed.
End Chan.
