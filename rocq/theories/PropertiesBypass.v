(** C86: While a client waits for the arbiter, or a sender for a slot of the channel, only those that began to wait before it are
    served.  Models: those of C31-C33 and C22-C30. *)
From Coq Require Import Sorted.
From Verif Require Import Base LTS WakerRegModel ArbiterModel ArbiterSpec ArbiterProofs ChannelModel ChannelInv ChannelProofs ChannelMore ChannelTrace.
Set Implicit Arguments.

(** The number of elements in front of [j]. *)
Fixpoint before (j : nat) (q : list nat) : nat := match q with [] => 0 | k :: q' => if k =? j then 0 else S (before j q') end.
Lemma before_app j q q' : In j q -> before j (q ++ q') = before j q.
Proof. induction q as [|k q IH]; intros I; [destruct I|]. simpl. destruct (Nat.eqb_spec k j); [reflexivity|]. destruct I as [I|I]; [congruence|]. now rewrite IH. Qed.
Lemma before_remove j k q : k <> j -> before j (remove Nat.eq_dec k q) <= before j q.
Proof. intros N. induction q as [|x q IH]; [reflexivity|]. simpl. destruct (Nat.eq_dec k x) as [<-|]. - destruct (Nat.eqb_spec k j); [congruence|]. lia. - simpl. destruct (x =? j); lia. Qed.
(** In a queue sorted by tickets these are the elements with smaller tickets. *)
Lemma before_count (f : nat -> nat) q j : StronglySorted (fun a b => f a < f b) q -> In j q -> forall W, (forall k, In k q -> f k < f j -> In k W) -> before j q <= length W.
Proof.
  intros S I. assert (H : exists l r, q = l ++ j :: r /\ length l = before j q /\ NoDup l /\ forall k, In k l -> f k < f j).
  { induction S as [|x q S IH F]; [destruct I|]. simpl. destruct (Nat.eqb_spec x j) as [->|Ne].
    - exists [], q. repeat split; [constructor|intros ? []].
    - destruct I as [I|I]; [congruence|]. destruct (IH I) as (l & r & -> & E & N & L). exists (x :: l), r. rewrite Forall_forall in F. split; [reflexivity|]. split; [simpl; now rewrite E|]. split.
      + constructor; [|exact N]. intros Ix. pose proof (F x) as X. specialize (X ltac:(apply in_app_iff; now left)). lia.
      + intros k [<-|Ik]; [apply F, in_app_iff; right; now left|now apply L]. }
  destruct H as (l & r & Eq & <- & N & L). intros W HW. apply NoDup_incl_length; [exact N|]. intros k Ik. apply HW; [rewrite Eq; apply in_app_iff; now left|now apply L].
Qed.

Section Arbiter.
Context {V : Type}.
Implicit Types s : @arb V.
Definition releases (l : list aevent) : nat := length (filter (fun e => match e with GRelease _ => true | _ => false end) l).
Lemma releases_app l l' : releases (l ++ l') = releases l + releases l'.
Proof. unfold releases. now rewrite filter_app, app_length. Qed.

Lemma bypass_step s l s' j : AInv s -> waiting s j -> astep s l = Some s' -> l <> ACancel j ->
  exists es, alog s' = alog s ++ es /\ ((exists w, In (GWake j w) es /\ releases es = 1 /\ before j (awq s) = 0) \/ (waiting s' j /\ releases es + before j (awq s') <= before j (awq s))).
Proof.
  intros H [Hp Hl] Hs Hc. pose proof (proj2 (I_in H j) Hl) as Hq.
  assert (K : forall s1, alog s1 = alog s -> awq s1 = awq s -> waiting s1 j -> exists es, alog s1 = alog s ++ es /\ ((exists w, In (GWake j w) es /\ releases es = 1 /\ before j (awq s) = 0) \/ (waiting s1 j /\ releases es + before j (awq s1) <= before j (awq s)))).
  { intros s1 E1 E2 W. exists []. rewrite app_nil_r, E2. split; [exact E1|]. right. split; [exact W|]. unfold releases. simpl. lia. }
  assert (U : forall c i, i <> j -> waiting s j -> upd (cl s) i c j = cl s j) by (intros c i Ni _; unfold upd; destruct (Nat.eqb_spec j i); congruence).
  destruct l as [i|i w|i|i|i|i|i x]; simpl in Hs; destruct (a_pc (cl s i)) eqn:Ep; try discriminate; injection Hs as <-.
  - assert (i <> j) by congruence. apply K; [reflexivity..|]. unfold waiting. simpl. rewrite U by (auto; split; auto). auto.
  - unfold do_poll. replace (queue_empty s) with false by (unfold queue_empty; destruct (awq s); [destruct Hq|reflexivity]). simpl. destruct (a_link (cl s i)) eqn:El.
    + assert (i <> j) by congruence. exists [GWait i (aseq s)]. split; [reflexivity|]. right. split; [unfold waiting; simpl; rewrite U by (auto; split; auto); auto|]. simpl. rewrite before_app by exact Hq. unfold releases. simpl. lia.
    + apply K; [reflexivity..|]. split; assumption.
    + assert (i <> j) by congruence. apply K; [reflexivity..|]. unfold waiting. simpl. rewrite U by (auto; split; auto). auto.
  - assert (i <> j) by congruence. exists [GGrant i (a_seq (cl s i))]. assert (X : remove_link s i = s). { unfold remove_link. destruct (a_link (cl s i)) eqn:E; try reflexivity. apply (I_q H) in E. congruence. } rewrite X. split; [reflexivity|].
    right. split; [unfold waiting; simpl; rewrite U by (auto; split; auto); auto|]. unfold releases. simpl. lia.
  - assert (i <> j) by congruence. exists [GCancel i]. unfold remove_link. destruct (a_link (cl s i)) eqn:E; simpl; (split; [reflexivity|]); right; (split; [unfold waiting; simpl; rewrite U by (auto; split; auto); auto|]); unfold releases; simpl; try lia. now apply before_remove.
  - assert (i <> j) by congruence. unfold do_try. replace (queue_empty s) with false by (unfold queue_empty; destruct (awq s); [destruct Hq|reflexivity]). simpl. exists [GNone i]. split; [reflexivity|]. right. split; [split; assumption|]. unfold releases. simpl. lia.
  - assert (Ni : i <> j) by congruence. unfold do_release. simpl. destruct (awq s) as [|k q] eqn:Eq; [destruct Hq|]. simpl. eexists [GRelease i; _]. split; [rewrite <- app_assoc; reflexivity|]. destruct (Nat.eqb_spec k j) as [->|Nk].
    + left. eexists. split; [right; left; reflexivity|]. split; [reflexivity|]. reflexivity.
    + right. split; [|unfold releases; simpl; lia]. unfold waiting. simpl. unfold upd. destruct (Nat.eqb_spec j k); [congruence|]. destruct (Nat.eqb_spec j i); [congruence|]. auto.
  - assert (i <> j) by congruence. apply K; [reflexivity..|]. split; assumption.
Qed.

Lemma alog_mono s l s' : astep s l = Some s' -> exists es, alog s' = alog s ++ es.
Proof.
  intros Hs. destruct l as [i|i w|i|i|i|i|i x]; simpl in Hs; destruct (a_pc (cl s i)) eqn:Ep; try discriminate; injection Hs as <-.
  - exists []. now rewrite app_nil_r.
  - unfold do_poll. destruct (queue_empty s && negb (taken s))%bool; [exists []; now rewrite app_nil_r|]. destruct (a_link (cl s i)); [eexists; reflexivity|exists []; now rewrite app_nil_r..].
  - unfold remove_link. destruct (a_link (cl s i)); eexists; reflexivity.
  - unfold remove_link. destruct (a_link (cl s i)); eexists; reflexivity.
  - unfold do_try. destruct (queue_empty s && negb (taken s))%bool; eexists; reflexivity.
  - unfold do_release. simpl. destruct (awq s); simpl; [eexists; reflexivity|]. rewrite <- app_assoc. eexists; reflexivity.
  - exists []. now rewrite app_nil_r.
Qed.

(** Client [j] waits; [W] has at least those that wait since before [j].  From then on, unless [j] gives up, the guard is dropped at
    most [length W] times before it is dropped and handed to [j], which is woken; the hand-over is at the latest at drop number
    [length W + 1]. *)
Theorem C86_arbiter_turn v s ls s' j W es : areach v s -> waiting s j -> (forall k nk nj, waiting s k -> a_seq (cl s k) = Some nk -> a_seq (cl s j) = Some nj -> nk < nj -> In k W) ->
  run astep s ls = Some s' -> ~ In (ACancel j) ls -> alog s' = alog s ++ es ->
  (exists w e1 e2, es = e1 ++ GWake j w :: e2 /\ releases e1 <= S (length W)) \/ (waiting s' j /\ releases es <= length W).
Proof.
  intros R Hw HW Hr Hc E. pose proof (AInv_reach R) as H. assert (B : before j (awq s) <= length W).
  { apply (@before_count (tk s)); [exact (I_sorted H)|apply (I_in H); exact (proj2 Hw)|]. intros k Ik L. apply (I_in H) in Ik. destruct (@I_some _ _ H k ltac:(congruence)) as (nk & Ek & _). destruct (@I_some _ _ H j ltac:(rewrite (proj2 Hw); discriminate)) as (nj & Ej & _).
    unfold tk in L. rewrite Ek, Ej in L. apply (HW k nk nj); auto. split; [exact (I_q H k Ik)|exact Ik]. }
  clear HW R. enough (G : (exists w e1 e2, es = e1 ++ GWake j w :: e2 /\ releases e1 <= S (before j (awq s))) \/ (waiting s' j /\ releases es + before j (awq s') <= before j (awq s))).
  { destruct G as [(w & e1 & e2 & G1 & G2)|[G1 G2]]; [left; exists w, e1, e2; split; [exact G1|lia]|right; split; [exact G1|lia]]. }
  clear B. revert s s' es H Hw Hr E. induction ls as [|l ls IH]; intros s s' es H Hw Hr E; simpl in Hr.
  - injection Hr as <-. rewrite <- app_nil_r in E at 1. apply app_inv_head in E. subst es. right. split; [exact Hw|]. unfold releases. simpl. lia.
  - destruct (astep s l) as [s1|] eqn:E1; [|discriminate]. destruct (@bypass_step s l s1 j H Hw E1) as (e1 & L1 & C); [intros ->; apply Hc; now left|].
    assert (X : exists e2, alog s' = alog s1 ++ e2) by (clear - Hr; revert s1 Hr; induction ls as [|l ls IH]; intros s1 Hr; simpl in Hr; [injection Hr as <-; exists []; now rewrite app_nil_r|]; destruct (astep s1 l) as [s2|] eqn:Q; [|discriminate];
       destruct (IH _ Hr) as [e3 L3]; destruct (alog_mono _ _ Q) as [e4 L4]; exists (e4 ++ e3); now rewrite L3, L4, app_assoc).
    destruct X as [e2 L2]. rewrite L2, L1, <- app_assoc in E. apply app_inv_head in E. subst es. destruct C as [(w & I & Cr & Cb)|[Hw1 C]].
    + left. apply in_split in I as (a & b & ->). exists w, a, (b ++ e2). split; [now rewrite <- app_assoc|]. rewrite releases_app in Cr. lia.
    + destruct (IH (fun I => Hc (or_intror I)) s1 s' e2 (AInv_step _ H E1) Hw1 Hr L2) as [(w & a & b & -> & D)|[Hw' D]].
      * left. exists w, (e1 ++ a), b. split; [now rewrite app_assoc|]. rewrite releases_app. lia.
      * right. split; [exact Hw'|]. rewrite releases_app. lia.
Qed.
End Arbiter.

Section Channel.
Context {V : Type} (N : nat).
Implicit Types s : chan V.
Definition in_line s j : Prop := h_link (hs s j) = LQueued.
Definition waits_slot s j : Prop := (exists v, h_pc (hs s j) = SWait v) /\ in_line s j.
Definition received (l : list (event V)) : nat := length (recvs l).
Lemma received_app (l l' : list (event V)) : received (l ++ l') = received l + received l'.
Proof. unfold received. rewrite <- app_length. f_equal. induction l as [|[] l IH]; simpl; try assumption; [reflexivity|now rewrite IH]. Qed.
Lemma received_wakes k : received (map EWakeR k) = 0.
Proof. induction k; [reflexivity|assumption]. Qed.

(** What a step adds to the log, and what it does to the queue and to [j] in it. *)
Definition slot_turn s s' j (es : list (event V)) : Prop :=
  (exists x r, es = EHand j x :: r) \/ (waits_slot s' j /\ received es + before j (wq s') <= before j (wq s)).
Lemma return_turn s x j : In j (wq s) -> waits_slot s j -> exists es, log (return_slot N s x) = log s ++ es /\
  ((exists r, es = EHand j x :: r) \/ (waits_slot (return_slot N s x) j /\ received es = 0 /\ S (before j (wq (return_slot N s x))) <= before j (wq s))).
Proof.
  intros Hq [[v Hp] Hl]. unfold return_slot. destruct (wq s) as [|k q] eqn:Eq; [destruct Hq|]. exists [EHand k x]. split; [reflexivity|]. simpl. destruct (Nat.eqb_spec k j) as [->|Nk].
  - left. eexists. reflexivity.
  - right. split; [|split; [reflexivity|lia]]. unfold waits_slot, in_line. simpl. unfold upd. destruct (Nat.eqb_spec j k); [congruence|]. eauto.
Qed.

Lemma turn_same s s' j : log s' = log s -> wq s' = wq s -> waits_slot s' j -> exists es, log s' = log s ++ es /\ slot_turn s s' j es.
Proof. intros E1 E2 W. exists []. rewrite app_nil_r. split; [exact E1|]. right. split; [exact W|]. rewrite E2. unfold received. simpl. lia. Qed.
Lemma turn_emit s s' j es : received es = 0 -> log s' = log s ++ es -> wq s' = wq s -> waits_slot s' j -> exists es, log s' = log s ++ es /\ slot_turn s s' j es.
Proof. intros E0 E1 E2 W. exists es. split; [exact E1|]. right. split; [exact W|]. rewrite E2. lia. Qed.

Lemma channel_turn_step s l s' j : InvL s -> rdropped s = false -> waits_slot s j -> step N s l = Some s' -> l <> LCancel j -> exists es, log s' = log s ++ es /\ slot_turn s s' j es.
Proof.
  intros H Hd Hw Hs Hc. pose proof (proj2 (L_in H j) (proj2 Hw)) as Hq. destruct Hw as [[v0 Hp] Hl].
  assert (U : forall i h, i <> j -> upd (hs s) i h j = hs s j) by (intros i h Ni; unfold upd; destruct (Nat.eqb_spec j i); congruence).
  assert (W0 : waits_slot s j) by (split; [eauto|exact Hl]).
  assert (Hx : hs s' j = hs s j -> waits_slot s' j) by (intros E; unfold waits_slot, in_line; rewrite E; exact W0).
  destruct l as [|i k|i v|i v|i w|i|i|i| |w| | |]; cbn [step] in Hs.
  - destruct (recv s) eqn:Er; try discriminate. injection Hs as <-. pose proof (L_new H Er) as ->. discriminate.
  - destruct (h_pc (hs s i)) eqn:Ep; try discriminate. destruct (h_pc (hs s k)) eqn:Ek; try discriminate. injection Hs as <-. apply turn_same; [reflexivity..|]. apply Hx. apply U. congruence.
  - destruct (h_pc (hs s i)) eqn:Ep; try discriminate. simpl in Hs. destruct (wq s) eqn:Eq; [destruct Hq|]. injection Hs as <-. apply turn_emit with (es := [EStart i v; EFull i v]); [reflexivity| |symmetry; exact Eq || exact (eq_refl _)|]. simpl. now rewrite <- app_assoc. exact W0.
  - destruct (h_pc (hs s i)) eqn:Ep; try discriminate. injection Hs as <-. apply turn_emit with (es := [EStart i v]); [reflexivity..|]. apply Hx, U. congruence.
  - assert (X : forall v, h_pc (hs s i) = SNew v \/ h_pc (hs s i) = SWait v -> exists es, log (send_poll s i w v) = log s ++ es /\ slot_turn s (send_poll s i w v) j es).
    { intros v Hv. unfold send_poll. rewrite Hd. destruct (h_link (hs s i)) eqn:El.
      - assert (Ni : i <> j) by (intros ->; congruence). destruct (wq s) eqn:Eq; [destruct Hq|]. rewrite <- Eq in *. exists []. split; [simpl; now rewrite app_nil_r|]. right. split; [unfold waits_slot, in_line; simpl; rewrite U by exact Ni; exact W0|]. simpl. rewrite before_app by exact Hq. unfold received. simpl. lia.
      - apply turn_same; [reflexivity..|]. unfold waits_slot, in_line. simpl. unfold upd. destruct (Nat.eqb_spec j i); [subst i; simpl; eauto|]. eauto.
      - assert (Ni : i <> j) by (intros ->; congruence). apply turn_same; [reflexivity..|]. unfold waits_slot, in_line; simpl; rewrite U by exact Ni; exact W0. }
    destruct (h_pc (hs s i)) eqn:Ep; try discriminate; injection Hs as <-; apply X; auto.
  - assert (Ni : h_pc (hs s i) <> SWait v0 -> i <> j) by (intros A ->; now apply A). destruct (h_pc (hs s i)) as [| |v|v|v|v|d v|d v|x v|x v|v| |] eqn:Ep; try discriminate; (assert (Nj : i <> j) by (apply Ni; discriminate)); clear Ni.
    + rewrite Hd in Hs. injection Hs as <-. apply turn_same; [reflexivity..|]. now apply Hx, U.
    + destruct (freeq s); injection Hs as <-; [apply turn_emit with (es := [EFull i v]); [reflexivity..|]|apply turn_same; [reflexivity..|]]; now apply Hx, U.
    + injection Hs as <-. exists []. split; [simpl; now rewrite app_nil_r|]. right. split; [now apply Hx, U|]. simpl. unfold received. simpl. now apply before_remove.
    + set (s1 := set_h s i _) in Hs. assert (W1 : waits_slot s1 j) by (unfold s1, waits_slot, in_line; simpl; rewrite U by exact Nj; exact W0).
      assert (X : forall s2 e1, log s2 = log s ++ e1 -> ((exists x r, e1 = EHand j x :: r) \/ (waits_slot s2 j /\ received e1 = 0 /\ before j (wq s2) <= before j (wq s))) ->
         match d with DOk x => Some (set_pc s2 i (FWrite x v)) | DErr => Some (finish s2 i (ENoRecv i v)) | DCancel => Some (finish s2 i (ECancel i v)) end = Some s' -> exists es, log s' = log s ++ es /\ slot_turn s s' j es).
      { intros s2 e1 E1 C Es. assert (Y : exists e2, log s' = log s2 ++ e2 /\ received e2 = 0 /\ wq s' = wq s2 /\ hs s' j = hs s2 j).
        { assert (U2 : forall h, upd (hs s2) i h j = hs s2 j) by (intros h; unfold upd; destruct (Nat.eqb_spec j i); congruence). destruct d; injection Es as <-; [exists []; split; [simpl; now rewrite app_nil_r|]|eexists [_]; split; [reflexivity|]..]; (split; [reflexivity|]); (split; [reflexivity|]); simpl; apply U2. }
        destruct Y as (e2 & E2 & R2 & Wq2 & H2). exists (e1 ++ e2). split; [now rewrite E2, E1, app_assoc|]. destruct C as [(x & r & ->)|(C1 & C2 & C3)]; [left; simpl; eauto|]. right. split; [unfold waits_slot, in_line; rewrite H2; exact C1|]. rewrite received_app, Wq2. lia. }
      destruct (h_slot (hs s i)) as [x|].
      * destruct (@return_turn s1 x j Hq W1) as (e1 & L1 & C). apply (X (return_slot N s1 x) e1); [exact L1| |exact Hs]. destruct C as [(r & C)|(C1 & C2 & C3)]; [left; eauto|right]. split; [exact C1|]. split; [exact C2|]. change (wq s1) with (wq s) in C3. lia.
      * apply (X s1 []); [simpl; now rewrite app_nil_r| |exact Hs]. right. split; [exact W1|]. split; [reflexivity|]. simpl. lia.
    + injection Hs as <-. apply turn_same; [reflexivity..|]. now apply Hx, U.
    + injection Hs as <-. apply turn_emit with (es := [ECommit i v]); [reflexivity..|]. now apply Hx, U.
    + injection Hs as <-. unfold finish, wake_receiver in *. destruct (wreg_wake (rwaker s)) as [r k]. apply turn_emit with (es := map EWakeR k ++ [ESent i v]); [rewrite received_app, received_wakes; reflexivity|simpl; now rewrite app_assoc|reflexivity|]. now apply Hx, U.
    + injection Hs as <-. unfold wake_receiver in *. destruct (wreg_wake (rwaker s)) as [r k]. apply turn_emit with (es := map EWakeR k); [apply received_wakes|reflexivity|reflexivity|]. now apply Hx, U.
  - destruct (h_pc (hs s i)) eqn:Ep; try discriminate; injection Hs as <-; [|assert (i <> j) by congruence; apply turn_same; [reflexivity..|]; now apply Hx, U]. apply turn_emit with (es := [ECancel i v]); [reflexivity..|]. apply Hx, U. congruence.
  - destruct (h_pc (hs s i)) eqn:Ep; try discriminate; injection Hs as <-. apply turn_same; [reflexivity..|]. apply Hx, U. congruence.
  - destruct (recv s) eqn:Er; try discriminate. injection Hs as <-. now apply turn_same.
  - destruct (recv s) eqn:Er; try discriminate; injection Hs as <-; now apply turn_same.
  - rewrite (L_drop H) in Hd. destruct (recv s) as [| |w|w|w x|w x v|w|w| |x| |] eqn:Er; try discriminate.
    + injection Hs as <-. unfold register_receiver in *. destruct (wreg_register (rwaker s) w) as [r k]. apply turn_emit with (es := map EWakeR k); [apply received_wakes|reflexivity|reflexivity|]. exact W0.
    + destruct (readyq s); injection Hs as <-; now apply turn_same.
    + destruct (slots s x); injection Hs as <-; now apply turn_same.
    + injection Hs as <-. destruct (@return_turn s x j Hq W0) as (e1 & L1 & C). exists (e1 ++ [ERecv v]). split; [simpl; now rewrite L1, app_assoc|]. destruct C as [(r & ->)|(C1 & C2 & C3)]; [left; simpl; eauto|right]. split; [exact C1|]. rewrite received_app, C2. unfold received. simpl. lia.
    + destruct (nsend s); [|destruct w]; injection Hs as <-; [apply turn_emit with (es := [ENoSender])|apply turn_same|apply turn_emit with (es := [EEmpty])]; try reflexivity; exact W0.
  - destruct (recv s) eqn:Er; try discriminate. injection Hs as <-. now apply turn_same.
  - destruct (recv s) eqn:Er; try discriminate. injection Hs as <-. now apply turn_same.
Qed.

(** Once the receiver is dropped, nothing is received. *)
Lemma return_log s x : exists es, log (return_slot N s x) = log s ++ es.
Proof. unfold return_slot. destruct (wq s); [exists []; simpl; now rewrite app_nil_r|eexists; reflexivity]. Qed.
Lemma quiet_step s l s' : InvL s -> step N s l = Some s' -> exists es, log s' = log s ++ es /\ (rdropped s = true -> received es = 0).
Proof.
  intros H Hs.
  assert (K : log s' = log s -> exists es, log s' = log s ++ es /\ (rdropped s = true -> received es = 0)) by (intros E; exists []; rewrite app_nil_r; auto).
  assert (K1 : forall es, received es = 0 -> log s' = log s ++ es -> exists es, log s' = log s ++ es /\ (rdropped s = true -> received es = 0)) by (intros es E0 E; eauto).
  destruct l as [|i k|i v|i v|i w|i|i|i| |w| | |]; cbn [step] in Hs.
  - destruct (recv s) eqn:Er; try discriminate. injection Hs as <-. now apply K.
  - destruct (h_pc (hs s i)) eqn:Ep; try discriminate. destruct (h_pc (hs s k)) eqn:Ek; try discriminate. injection Hs as <-. now apply K.
  - destruct (h_pc (hs s i)) eqn:Ep; try discriminate. simpl in Hs. destruct (wq s) eqn:Eq; injection Hs as <-; [apply (K1 [EStart i v]); reflexivity|]. apply (K1 [EStart i v; EFull i v]); [reflexivity|]. simpl. now rewrite <- app_assoc.
  - destruct (h_pc (hs s i)) eqn:Ep; try discriminate. injection Hs as <-. apply (K1 [EStart i v]); reflexivity.
  - destruct (h_pc (hs s i)) eqn:Ep; try discriminate; injection Hs as <-; apply K; unfold send_poll; destruct (rdropped s); try reflexivity; destruct (h_link (hs s i)); try reflexivity; destruct (wq s), (freeq s); reflexivity.
  - destruct (h_pc (hs s i)) as [| |v|v|v|v|d v|d v|x v|x v|v| |] eqn:Ep; try discriminate.
    + destruct (rdropped s); injection Hs as <-; [apply (K1 [ENoRecv i v]); reflexivity|now apply K].
    + destruct (freeq s); injection Hs as <-; [apply (K1 [EFull i v]); reflexivity|now apply K].
    + injection Hs as <-. now apply K.
    + set (s1 := set_h s i _) in Hs. assert (X : exists e1, log (match h_slot (hs s i) with Some x => return_slot N s1 x | None => s1 end) = log s ++ e1 /\ received e1 = 0).
      { destruct (h_slot (hs s i)) as [x|]; [|exists []; rewrite app_nil_r; split; reflexivity]. unfold return_slot. destruct (wq s1); [exists []; simpl; rewrite app_nil_r; split; reflexivity|eexists; split; [reflexivity|reflexivity]]. }
      destruct X as (e1 & L1 & R1). destruct d; injection Hs as <-; simpl; rewrite L1; [exists e1; auto|eexists (e1 ++ [_]); split; [rewrite app_assoc; reflexivity|]; rewrite received_app, R1; reflexivity..].
    + injection Hs as <-. now apply K.
    + injection Hs as <-. apply (K1 [ECommit i v]); reflexivity.
    + injection Hs as <-. unfold finish, wake_receiver in *. destruct (wreg_wake (rwaker s)) as [r k]. apply (K1 (map EWakeR k ++ [ESent i v])); [rewrite received_app, received_wakes; reflexivity|simpl; now rewrite app_assoc].
    + injection Hs as <-. unfold wake_receiver in *. destruct (wreg_wake (rwaker s)) as [r k]. apply (K1 (map EWakeR k)); [apply received_wakes|reflexivity].
  - destruct (h_pc (hs s i)) eqn:Ep; try discriminate; injection Hs as <-; [|now apply K]. apply (K1 [ECancel i v]); reflexivity.
  - destruct (h_pc (hs s i)) eqn:Ep; try discriminate; injection Hs as <-. now apply K.
  - destruct (recv s) eqn:Er; try discriminate. injection Hs as <-. now apply K.
  - destruct (recv s) eqn:Er; try discriminate; injection Hs as <-; now apply K.
  - destruct (recv s) as [| |w|w|w x|w x v|w|w| |x| |] eqn:Er; try discriminate.
    + injection Hs as <-. unfold register_receiver in *. destruct (wreg_register (rwaker s) w) as [r k]. apply (K1 (map EWakeR k)); [apply received_wakes|reflexivity].
    + destruct (readyq s); injection Hs as <-; now apply K.
    + destruct (slots s x); injection Hs as <-; now apply K.
    + injection Hs as <-. destruct (return_log s x) as [e1 L1]. exists (e1 ++ [ERecv v]). split; [simpl; now rewrite L1, app_assoc|]. rewrite (L_drop H), Er. discriminate.
    + destruct (nsend s); [|destruct w]; injection Hs as <-; [apply (K1 [ENoSender]); reflexivity|now apply K|apply (K1 [EEmpty]); reflexivity].
    + destruct (rev (readyq s)); injection Hs as <-; now apply K.
    + destruct (slots s x); injection Hs as <-; [eapply (K1 [EDropV _]); reflexivity|now apply K].
    + destruct (wq s); injection Hs as <-; [now apply K|eapply (K1 [EWakeS _]); reflexivity].
  - destruct (recv s) eqn:Er; try discriminate. injection Hs as <-. now apply K.
  - destruct (recv s) eqn:Er; try discriminate. injection Hs as <-. now apply K.
Qed.
Lemma quiet_run s ls s' : creach N s -> run (step N) s ls = Some s' -> exists es, log s' = log s ++ es /\ (rdropped s = true -> received es = 0).
Proof.
  revert s. induction ls as [|l ls IH]; intros s R Hr; simpl in Hr; [injection Hr as <-; exists []; rewrite app_nil_r; split; reflexivity|]. destruct (step N s l) as [s1|] eqn:E; [|discriminate]. pose proof (A_L (InvAll_reach R)) as H.
  destruct (@quiet_step s l s1 H E) as (e1 & L1 & Q1). destruct (IH s1 (reach_step _ R E) Hr) as (e2 & L2 & Q2). exists (e1 ++ e2). split; [now rewrite L2, L1, app_assoc|]. intros D. rewrite received_app, Q1, Q2; auto. exact (@rdropped_mono _ _ _ _ _ H E D).
Qed.

(** Sender [j] waits for a slot; [W] has at least those in line that wait since before [j].  From then on, unless [j] gives up, at
    most [length W] messages are received before a slot is handed to [j], which is woken; if it never is, at most [length W]
    messages are received in all (and then the receiver is gone, or [j] still waits). *)
Theorem C86_channel_turn s ls s' j W es : creach N s -> waits_slot s j -> (forall k, in_line s k -> h_seq (hs s k) < h_seq (hs s j) -> In k W) ->
  run (step N) s ls = Some s' -> ~ In (LCancel j) ls -> log s' = log s ++ es ->
  (exists x e1 e2, es = e1 ++ EHand j x :: e2 /\ received e1 <= length W) \/ ((waits_slot s' j \/ rdropped s' = true) /\ received es <= length W).
Proof.
  intros R Hw HW Hr Hc E. pose proof (InvX_reach R) as X. assert (B : before j (wq s) <= length W).
  { pose proof (A_L (X_A X)) as HL. apply (@before_count (fun k => h_seq (hs s k))); [exact (S_sorted (X_S X))|apply (L_in HL); exact (proj2 Hw)|]. intros k Ik L. apply HW; [now apply (L_in HL)|exact L]. }
  clear HW X. enough (G : (exists x e1 e2, es = e1 ++ EHand j x :: e2 /\ received e1 <= before j (wq s)) \/ ((waits_slot s' j \/ rdropped s' = true) /\ received es <= before j (wq s))).
  { destruct G as [(x & e1 & e2 & G1 & G2)|[G1 G2]]; [left; exists x, e1, e2; split; [exact G1|lia]|right; split; [exact G1|lia]]. }
  clear B. revert s s' es R Hw Hr E. induction ls as [|l ls IH]; intros s s' es R Hw Hr E; simpl in Hr.
  - injection Hr as <-. rewrite <- app_nil_r in E at 1. apply app_inv_head in E. subst es. right. split; [now left|]. unfold received. simpl. lia.
  - pose proof (A_L (InvAll_reach R)) as H. destruct (rdropped s) eqn:Ed.
    + right. assert (Hr' : run (step N) s (l :: ls) = Some s') by (simpl; exact Hr). destruct (@quiet_run s _ _ R Hr') as (e & L & Q). rewrite L in E. apply app_inv_head in E. subst e. rewrite Q by exact Ed. split; [right|lia].
      clear - Hr' R Ed. revert s R Ed Hr'. generalize (l :: ls). intros k. induction k as [|a k IH]; intros s R Ed Hr; simpl in Hr; [now injection Hr as <-|]. destruct (step N s a) as [s1|] eqn:Q; [|discriminate]. apply (IH s1); [exact (reach_step _ R Q)| |exact Hr]. exact (@rdropped_mono _ _ _ _ _ (A_L (InvAll_reach R)) Q Ed).
    + destruct (step N s l) as [s1|] eqn:E1; [|discriminate]. destruct (@channel_turn_step s l s1 j H Ed Hw E1) as (e1 & L1 & C); [intros ->; apply Hc; now left|].
      pose proof (reach_step _ R E1) as R1. destruct (@quiet_run s1 _ _ R1 Hr) as (e2 & L2 & _). rewrite L2, L1, <- app_assoc in E. apply app_inv_head in E. subst es. destruct C as [(x & r & ->)|[Hw1 C]].
      * left. exists x, [], (r ++ e2). split; [reflexivity|]. unfold received. simpl. lia.
      * destruct (IH (fun I => Hc (or_intror I)) s1 s' e2 R1 Hw1 Hr L2) as [(x & a & b & -> & D)|[Hw' D]].
        -- left. exists x, (e1 ++ a), b. split; [now rewrite app_assoc|]. rewrite received_app. lia.
        -- right. split; [exact Hw'|]. rewrite received_app. lia.
Qed.
End Channel.

(** 0 has the guard, 1 and then 2 wait: [W] is 1.  0 drops its guard (1 is served), 3 comes and waits, 1 drops its guard: the
    second drop hands the arbiter to 2. *)
Example C86_arbiter_case : exists s s' es,
  run astep (arb_new 5) [ATry 0; AAccess 1; APoll 1 50; AAccess 2; APoll 2 60] = Some s /\ waiting s 2 /\
  (forall k nk nj, waiting s k -> a_seq (cl s k) = Some nk -> a_seq (cl s 2) = Some nj -> nk < nj -> In k [1]) /\
  run astep s [ARelease 0; APoll 1 50; AFinish 1; AAccess 3; APoll 3 70; ARelease 1] = Some s' /\ alog s' = alog s ++ es /\
  es = [GRelease 0; GWake 1 50; GGrant 1 (Some 0); GWait 3 2; GRelease 1; GWake 2 60].
Proof.
  do 3 eexists. split; [vm_compute; reflexivity|]. split; [vm_compute; auto|]. split.
  - intros [|[|[|k]]] nk nj Hw Hk Hj L; vm_compute in Hw, Hk, Hj; [destruct Hw; discriminate|now left| |destruct Hw; discriminate]. injection Hk as <-. injection Hj as <-. lia.
  - split; [vm_compute; reflexivity|]. split; vm_compute; reflexivity.
Qed.

(** A channel of one slot, full; 1 and then 2 wait: [W] is 1.  The first receive hands its slot to 1, which sends; the second one
    hands its slot to 2. *)
Example C86_channel_case : exists s s' es,
  run (step 1) chan_new [LSplit; LClone 0 1; LClone 0 2; LTry 0 7; LStep 0; LStep 0; LStep 0; LStep 0; LStep 0; LSend 1 8; LPoll 1 50; LSend 2 9; LPoll 2 60] = Some s /\ waits_slot s 2 /\
  (forall k, in_line s k -> h_seq (hs s k) < h_seq (hs s 2) -> In k [1]) /\
  run (step 1) s [LTryRecv; LRStep; LRStep; LRStep; LPoll 1 50; LStep 1; LStep 1; LStep 1; LStep 1; LStep 1; LTryRecv; LRStep; LRStep; LRStep] = Some s' /\ log s' = log s ++ es /\
  es = [EHand 1 0; ERecv 7; ECommit 1 8; ESent 1 8; EHand 2 0; ERecv 8].
Proof.
  do 3 eexists. split; [vm_compute; reflexivity|]. split; [vm_compute; eauto|]. split.
  - intros [|[|[|k]]] Hw L; vm_compute in Hw, L; try discriminate; [now left|lia].
  - split; [vm_compute; reflexivity|]. split; vm_compute; reflexivity.
Qed.
Print Assumptions C86_arbiter_turn.
Print Assumptions C86_channel_turn.
