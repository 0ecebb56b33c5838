(** C87: A waker is called only for cause.  Models: those of C22-C35; for delays see C39_woken_once_not_early. *)
From Verif Require Import Base LTS WakerRegModel ArbiterModel ArbiterSpec ArbiterProofs ChannelModel ChannelSpec ChannelInv ChannelProofs ChannelTrace ChannelMore SignalModel SignalSpec.
Set Implicit Arguments.

(** The number of entries for which [p] holds. *)
Definition tally {A} (p : A -> bool) (l : list A) : nat := length (filter p l).
Lemma tally_app {A} (p : A -> bool) l l' : tally p (l ++ l') = tally p l + tally p l'.
Proof. unfold tally. now rewrite filter_app, app_length. Qed.
Lemma tally_nil {A} (p : A -> bool) : tally p [] = 0.
Proof. reflexivity. Qed.
Lemma tally_one {A} (p : A -> bool) x : tally p [x] = if p x then 1 else 0.
Proof. unfold tally. simpl. now destruct (p x). Qed.
Lemma tally_map_none {A B} (p : B -> bool) (g : A -> B) k : (forall x, p (g x) = false) -> tally p (map g k) = 0.
Proof. intros H. unfold tally. induction k as [|x k IH]; [reflexivity|]. simpl. now rewrite H. Qed.

(** Inductive invariants of runs that also see the labels so far. *)
Lemma run_hist {S L} (st : S -> L -> option S) s0 (P : list L -> S -> Prop) : P [] s0 -> (forall ls s l s', run st s0 ls = Some s -> P ls s -> st s l = Some s' -> P (ls ++ [l]) s') -> forall ls s, run st s0 ls = Some s -> P ls s.
Proof.
  intros P0 PS ls. induction ls as [|l ls IH] using rev_ind; intros s Hr; [injection Hr as <-; exact P0|]. rewrite run_app in Hr. destruct (run st s0 ls) as [s1|] eqn:E; [|discriminate]. simpl in Hr. destruct (st s1 l) as [s2|] eqn:E2; [|discriminate]. injection Hr as <-. eapply PS; eauto.
Qed.

Definition is_waker (w : nat) (o : wreg) : nat := match o with Some w' => if w' =? w then 1 else 0 | None => 0 end.
Definition wcount (w : nat) (k : list nat) : nat := tally (Nat.eqb w) k.
Lemma register_count r w0 w : forall r' k, wreg_register r w0 = (r', k) -> wcount w k + is_waker w r' <= is_waker w r + (if w0 =? w then 1 else 0).
Proof.
  unfold wreg_register, wcount, tally. intros r' k. destruct r as [w2|]; [destruct (Nat.eqb_spec w2 w0)|]; intros E; injection E as <- <-; simpl.
  - lia.
  - destruct (Nat.eqb_spec w w2); destruct (Nat.eqb_spec w0 w); destruct (Nat.eqb_spec w2 w); simpl; lia.
  - destruct (w0 =? w); lia.
Qed.
Lemma wake_count r w : forall r' k, wreg_wake r = (r', k) -> wcount w k + is_waker w r' <= is_waker w r.
Proof. unfold wreg_wake, wcount, tally. intros r' k. destruct r as [w2|]; intros E; injection E as <- <-; simpl; [|lia]. destruct (Nat.eqb_spec w w2); destruct (Nat.eqb_spec w2 w); simpl; lia. Qed.

Section Signal.
Context {V : Type}.
Notation sig := (@sig V).
Definition is_vwake (w : nat) (e : @sevent V) : bool := match e with VWake w' => w =? w' | _ => false end.
Definition any_vwake (e : @sevent V) : bool := match e with VWake _ => true | _ => false end.
Definition is_put (e : @sevent V) : bool := match e with VWrite _ _ | VClear _ => true | _ => false end.
Definition polls_with (w : nat) (l : @slabel V) : bool := match l with SPoll _ w' => w =? w' | _ => false end.
Lemma tally_vwake w k : tally (is_vwake w) (map VWake k) = wcount w k.
Proof. unfold tally, wcount, tally. induction k as [|x k IH]; [reflexivity|]. simpl. destruct (w =? x); simpl; now rewrite IH. Qed.
Lemma tally_any_vwake k : tally any_vwake (map VWake k) = length k.
Proof. unfold tally. induction k as [|x k IH]; [reflexivity|]. simpl. now rewrite IH. Qed.

(** What one step adds to the log: wakers are called by the second half of a write or clear, and by a poll with another waker. *)
Lemma sig_step_cases k (s s' : sig) l : sstep k s l = Some s' ->
  (exists i, l = SWake i /\ wr s i = true /\ s' = do_wake s i) \/ (exists j w q, l = SPoll j w /\ s' = set_rd (do_register s w) j q) \/
  ((forall i, l <> SWake i) /\ (forall j w, l <> SPoll j w) /\ swk s' = swk s /\ exists es, slog s' = slog s ++ es /\ tally any_vwake es = 0 /\
     ((wr s' = wr s /\ tally is_put es = 0) \/ (exists i, wr s i = false /\ wr s' = upd (wr s) i true /\ tally is_put es = 1))).
Proof.
  intros Hs. destruct l as [i v|i|i|j|j|j|j|j|j w|j|j]; cbn [sstep] in Hs.
  - right. right. split; [discriminate|]. split; [discriminate|]. destruct (wr s i) eqn:E; [discriminate|]. injection Hs as <-. split; [reflexivity|]. eexists. split; [reflexivity|]. split; [reflexivity|]. right. exists i. auto.
  - right. right. split; [discriminate|]. split; [discriminate|]. destruct k; [|discriminate]. destruct (wr s i) eqn:E; [discriminate|]. injection Hs as <-. split; [reflexivity|]. eexists. split; [reflexivity|]. split; [reflexivity|]. right. exists i. auto.
  - left. destruct (wr s i) eqn:E; [|discriminate]. injection Hs as <-. eauto.
  - right. right. split; [discriminate|]. split; [discriminate|]. destruct (rd s j); try discriminate. destruct (ralive s); injection Hs as <-; (split; [reflexivity|]); eexists; (split; [reflexivity|]); (split; [reflexivity|]); left; split; reflexivity.
  - right. right. split; [discriminate|]. split; [discriminate|]. destruct (rd s j); try discriminate. injection Hs as <-; (split; [reflexivity|]); exists []; simpl; rewrite app_nil_r; (split; [reflexivity|]); (split; [reflexivity|]); left; split; reflexivity.
  - right. right. split; [discriminate|]. split; [discriminate|]. destruct k; [|discriminate]. destruct (rd s j); try discriminate. destruct (store s); injection Hs as <-; (split; [reflexivity|]); eexists; (split; [reflexivity|]); (split; [reflexivity|]); left; split; reflexivity.
  - right. right. split; [discriminate|]. split; [discriminate|]. destruct k; [|discriminate]. destruct (rd s j); try discriminate. injection Hs as <-; (split; [reflexivity|]); eexists; (split; [reflexivity|]); (split; [reflexivity|]); left; split; reflexivity.
  - right. right. split; [discriminate|]. split; [discriminate|]. destruct k; [discriminate|]. destruct (rd s j); try discriminate. injection Hs as <-; (split; [reflexivity|]); exists []; simpl; rewrite app_nil_r; (split; [reflexivity|]); (split; [reflexivity|]); left; split; reflexivity.
  - right. left. destruct (rd s j); try discriminate; injection Hs as <-; eauto.
  - right. right. split; [discriminate|]. split; [discriminate|]. unfold rstep in Hs. destruct (rd s j) as [| |w|w|w|o|o n v]; try discriminate.
    + destruct (store s); injection Hs as <-; (split; [reflexivity|]); [eexists|exists []; simpl; rewrite app_nil_r]; (split; [reflexivity|]); (split; [reflexivity|]); left; split; reflexivity.
    + injection Hs as <-; (split; [reflexivity|]); exists []; simpl; rewrite app_nil_r; (split; [reflexivity|]); (split; [reflexivity|]); left; split; reflexivity.
    + destruct (store s); [injection Hs as <-; (split; [reflexivity|]); exists []; simpl; rewrite app_nil_r; (split; [reflexivity|]); (split; [reflexivity|]); left; split; reflexivity|].
      destruct o; injection Hs as <-; (split; [reflexivity|]); [exists []; simpl; rewrite app_nil_r|eexists]; (split; [reflexivity|]); (split; [reflexivity|]); left; split; reflexivity.
    + injection Hs as <-; (split; [reflexivity|]); eexists; (split; [reflexivity|]). destruct o; (split; [reflexivity|]); left; split; reflexivity.
  - right. right. split; [discriminate|]. split; [discriminate|]. destruct (rd s j); try discriminate. injection Hs as <-; (split; [reflexivity|]); exists []; simpl; rewrite app_nil_r; (split; [reflexivity|]); (split; [reflexivity|]); left; split; reflexivity.
Qed.
Lemma any_zero w (es : list (@sevent V)) : tally any_vwake es = 0 -> tally (is_vwake w) es = 0.
Proof. unfold tally. induction es as [|[] es IH]; simpl; auto. discriminate. Qed.

(** A waker is called at most once for each poll that was given it. *)
Theorem C87_signal_once k ls (s : sig) w : run (sstep k) sig_new ls = Some s -> tally (is_vwake w) (slog s) <= tally (polls_with w) ls.
Proof.
  intros Hr. enough (G : tally (is_vwake w) (slog s) + is_waker w (swk s) <= tally (polls_with w) ls) by lia. revert ls s Hr. apply run_hist; [simpl; unfold tally; simpl; lia|]. intros ls s l s' _ IH Hs. rewrite tally_app, tally_one.
  destruct (sig_step_cases _ _ _ Hs) as [(i & -> & _ & ->)|[(j & w0 & q & -> & ->)|(N1 & N2 & E1 & es & E2 & E3 & _)]].
  - unfold do_wake. destruct (wreg_wake (swk s)) as [r kk] eqn:Ew. simpl. rewrite tally_app, tally_vwake. pose proof (wake_count _ w Ew). lia.
  - simpl. unfold do_register. destruct (wreg_register (swk s) w0) as [r kk] eqn:Ew. simpl. rewrite tally_app, tally_vwake. pose proof (register_count _ _ w Ew). rewrite (Nat.eqb_sym w w0). destruct (w0 =? w); lia.
  - rewrite E1, E2, tally_app, (any_zero w _ E3). lia.
Qed.

(** Every call of a waker is by a write or clear that has stored and now notifies, or by a poll with another waker. *)
Theorem C87_signal_cause k (s s' : sig) l es w : sstep k s l = Some s' -> slog s' = slog s ++ es -> In (VWake w) es ->
  es = [VWake w] /\ ((exists i, l = SWake i /\ wr s i = true) \/ (exists j w', l = SPoll j w' /\ w' <> w)).
Proof.
  intros Hs E I. destruct (sig_step_cases _ _ _ Hs) as [(i & -> & W & ->)|[(j & w0 & q & -> & ->)|(N1 & N2 & E1 & es' & E2 & E3 & _)]].
  - unfold do_wake in E. destruct (swk s) as [w2|]; simpl in E; apply app_inv_head in E; subst es; [|destruct I]. destruct I as [I|[]]. split; [now rewrite I|eauto].
  - simpl in E. unfold do_register, wreg_register in E. destruct (swk s) as [w2|]; [destruct (Nat.eqb_spec w2 w0) as [|Ne]|]; simpl in E; apply app_inv_head in E; subst es; try (destruct I; fail). destruct I as [I|[]]. split; [now rewrite I|]. injection I as <-. eauto.
  - rewrite E2 in E. apply app_inv_head in E. subst es'. exfalso. clear - I E3. unfold tally in E3. induction es as [|e es IH]; [destruct I|]. destruct I as [->|I]; [discriminate|]. apply IH; [exact I|]. destruct e; simpl in E3; (discriminate || exact E3).
Qed.

(** If all polls are made with one waker, it is called at most once for each write or clear. *)
Theorem C87_signal_per_write k ls (s : sig) w : run (sstep k) sig_new ls = Some s -> (forall j w', In (SPoll j w') ls -> w' = w) -> tally any_vwake (slog s) <= tally is_put (slog s).
Proof.
  intros Hr. enough (G : (forall j w', In (SPoll j w') ls -> w' = w) -> (swk s = None \/ swk s = Some w) /\ exists L, NoDup L /\ (forall i, wr s i = true <-> In i L) /\ tally any_vwake (slog s) + length L <= tally is_put (slog s)) by (intros A; destruct (G A) as (_ & L & _ & _ & B); lia).
  revert ls s Hr. match goal with |- forall ls s, _ -> @?P ls s => apply (@run_hist _ _ (sstep k) sig_new P) end.
  - intros _. split; [now left|]. exists []. split; [constructor|]. split; [intros i; simpl; split; [discriminate|tauto]|]. simpl. lia.
  - intros ls s l s' _ IH Hs A. destruct IH as (W & L & ND & HL & B); [intros j w' I; apply (A j w'), in_app_iff; now left|].
    destruct (sig_step_cases _ _ _ Hs) as [(i & -> & Wi & ->)|[(j & w0 & q & -> & ->)|(N1 & N2 & E1 & es & E2 & E3 & C)]].
    + unfold do_wake. destruct (wreg_wake (swk s)) as [r kk] eqn:Ew. simpl. assert (X : (r = None) /\ length kk <= 1) by (unfold wreg_wake in Ew; destruct (swk s); injection Ew as <- <-; simpl; auto). destruct X as [-> Lk]. split; [now left|].
      exists (remove Nat.eq_dec i L). split; [now apply remove_NoDup|]. split; [intros i'; rewrite remove_In, <- HL; unfold upd; destruct (Nat.eqb_spec i' i); intuition congruence|]. rewrite !tally_app, tally_any_vwake, (@tally_map_none _ _ is_put VWake) by reflexivity.
      apply HL in Wi. pose proof (remove_length_lt Nat.eq_dec L i Wi). lia.
    + assert (w0 = w) as -> by (apply (A j w0), in_app_iff; right; now left). simpl. unfold do_register. assert (X : wreg_register (swk s) w = (Some w, [])) by (unfold wreg_register; destruct W as [-> | ->]; [reflexivity|now rewrite Nat.eqb_refl]). rewrite X. simpl. rewrite app_nil_r. split; [now right|]. exists L. auto.
    + rewrite E1. split; [exact W|]. rewrite E2, !tally_app, E3. destruct C as [[E4 E5]|(i & E4 & E5 & E6)].
      * exists L. rewrite E4, E5. split; [exact ND|]. split; [exact HL|]. lia.
      * exists (i :: L). rewrite E5, E6. split; [constructor; [rewrite <- HL; congruence|exact ND]|]. split; [|simpl; lia]. intros i'. unfold upd. destruct (Nat.eqb_spec i' i); simpl; [intuition congruence|]. rewrite HL. intuition congruence.
Qed.
End Signal.

Section Channel.
Context {V : Type} (N : nat).
Notation chan := (chan V).
Notation event := (event V).
Definition is_wr (w : nat) (e : event) : bool := match e with EWakeR w' => w =? w' | _ => false end.
Definition any_wr (e : event) : bool := match e with EWakeR _ => true | _ => false end.
Definition is_commit (e : event) : bool := match e with ECommit _ _ => true | _ => false end.
Definition recv_with (w : nat) (l : label V) : bool := match l with LRecv w' => w =? w' | _ => false end.
(** what the step of the channel tells about the receiver's waker *)
Inductive rshape (s s' : chan) (l : label V) : list event -> Prop :=
| rs_none es : tally any_wr es = 0 -> rwaker s' = rwaker s -> (forall w, recv s' = RReg w -> recv s = RReg w \/ l = LRecv w) -> rshape s s' l es
| rs_sent i v k r : l = LStep i -> h_pc (hs s i) = FWake v -> wreg_wake (rwaker s) = (r, k) -> rwaker s' = r -> recv s' = recv s -> rshape s s' l (map EWakeR k ++ [ESent i v])
| rs_last i k r : l = LStep i -> h_pc (hs s i) = HDropWake -> wreg_wake (rwaker s) = (r, k) -> rwaker s' = r -> recv s' = recv s -> rshape s s' l (map EWakeR k)
| rs_reg w k r : l = LRStep -> recv s = RReg w -> wreg_register (rwaker s) w = (r, k) -> rwaker s' = r -> recv s' = RPop (Some w) -> rshape s s' l (map EWakeR k).
Lemma chan_shape s l s' : step N s l = Some s' -> exists es, log s' = log s ++ es /\ rshape s s' l es.
Proof.
  intros Hs.
  assert (K : log s' = log s -> rwaker s' = rwaker s -> (forall w, recv s' = RReg w -> recv s = RReg w \/ l = LRecv w) -> exists es, log s' = log s ++ es /\ rshape s s' l es) by (intros E1 E2 E3; exists []; rewrite app_nil_r; split; [exact E1|]; now constructor).
  assert (K1 : forall es, tally any_wr es = 0 -> log s' = log s ++ es -> rwaker s' = rwaker s -> (forall w, recv s' = RReg w -> recv s = RReg w \/ l = LRecv w) -> exists es, log s' = log s ++ es /\ rshape s s' l es) by (intros es E1 E2 E3 E4; exists es; split; [exact E2|]; now constructor).
  destruct l as [|i k|i v|i v|i w|i|i|i| |w| | |]; cbn [step] in Hs.
  - destruct (recv s) eqn:Er; try discriminate. injection Hs as <-. apply K; [reflexivity..|]. simpl. discriminate.
  - destruct (h_pc (hs s i)) eqn:Ep; try discriminate. destruct (h_pc (hs s k)) eqn:Ek; try discriminate. injection Hs as <-. apply K; simpl; auto.
  - destruct (h_pc (hs s i)) eqn:Ep; try discriminate. simpl in Hs. destruct (wq s) eqn:Eq; injection Hs as <-; [apply (K1 [EStart i v]); simpl; auto|]. apply (K1 [EStart i v; EFull i v]); simpl; auto. now rewrite <- app_assoc.
  - destruct (h_pc (hs s i)) eqn:Ep; try discriminate. injection Hs as <-. apply (K1 [EStart i v]); simpl; auto.
  - destruct (h_pc (hs s i)) eqn:Ep; try discriminate; injection Hs as <-; apply K; unfold send_poll; destruct (rdropped s); try reflexivity; try (simpl; now left); destruct (h_link (hs s i)); try reflexivity; try (simpl; now left); destruct (wq s), (freeq s); try reflexivity; simpl; now left.
  - destruct (h_pc (hs s i)) as [| |v|v|v|v|d v|d v|x v|x v|v| |] eqn:Ep; try discriminate.
    + destruct (rdropped s); injection Hs as <-; [apply (K1 [ENoRecv i v])|apply K]; simpl; auto.
    + destruct (freeq s); injection Hs as <-; [apply (K1 [EFull i v])|apply K]; simpl; auto.
    + injection Hs as <-. apply K; simpl; auto.
    + fold (drop2 N s i d v) in Hs. destruct (drop2_same N s i d v) as (_ & _ & _ & D1 & D2 & _). assert (X : exists e1, log (drop2 N s i d v) = log s ++ e1 /\ tally any_wr e1 = 0).
      { unfold drop2. destruct (h_slot (hs s i)) as [x|]; [|exists []; simpl; rewrite app_nil_r; split; reflexivity]. rewrite return_log. simpl. eexists. split; [reflexivity|]. destruct (wq s); reflexivity. }
      destruct X as (e1 & L1 & R1). destruct d; injection Hs as <-; [apply (K1 e1); simpl; auto|apply (K1 (e1 ++ [ENoRecv i v]))|apply (K1 (e1 ++ [ECancel i v]))]; simpl; rewrite ?tally_app, ?R1, ?L1, ?app_assoc, ?D1; auto; intros; left; congruence.
    + injection Hs as <-. apply K; simpl; auto.
    + injection Hs as <-. apply (K1 [ECommit i v]); simpl; auto.
    + injection Hs as <-. unfold finish, wake_receiver in *. destruct (wreg_wake (rwaker s)) as [r k] eqn:Ew. eexists. split; [|eapply rs_sent with (k := k); [reflexivity|exact Ep|exact Ew|reflexivity|reflexivity]]. simpl. now rewrite app_assoc.
    + injection Hs as <-. unfold wake_receiver in *. destruct (wreg_wake (rwaker s)) as [r k] eqn:Ew. eexists. split; [|eapply rs_last with (k := k); [reflexivity|exact Ep|exact Ew|reflexivity|reflexivity]]. reflexivity.
  - destruct (h_pc (hs s i)) eqn:Ep; try discriminate; injection Hs as <-; [apply (K1 [ECancel i v])|apply K]; simpl; auto.
  - destruct (h_pc (hs s i)) eqn:Ep; try discriminate; injection Hs as <-. apply K; simpl; auto.
  - destruct (recv s) eqn:Er; try discriminate. injection Hs as <-. apply K; simpl; auto; discriminate.
  - destruct (recv s) eqn:Er; try discriminate; injection Hs as <-; (apply K; [reflexivity..|]); simpl; intros w' E; injection E as <-; now right.
  - destruct (recv s) as [| |w|w|w x|w x v|w|w| |x| |] eqn:Er; try discriminate.
    + injection Hs as <-. unfold register_receiver in *. destruct (wreg_register (rwaker s) w) as [r k] eqn:Ew. eexists. split; [|eapply rs_reg with (k := k); [reflexivity|exact Er|exact Ew|reflexivity|reflexivity]]. reflexivity.
    + destruct (readyq s); injection Hs as <-; apply K; simpl; auto; discriminate.
    + destruct (slots s x); injection Hs as <-; apply K; simpl; auto; try discriminate. rewrite Er. discriminate.
    + injection Hs as <-. destruct (return_same N s x) as (_ & _ & _ & E3). assert (rwaker (return_slot N s x) = rwaker s) by intuition. apply (K1 (match wq s with [] => [] | j :: _ => [EHand j x] end ++ [ERecv v])); simpl; auto; try discriminate; [destruct (wq s); reflexivity|]. now rewrite return_log, app_assoc.
    + destruct (nsend s); [|destruct w]; injection Hs as <-; [apply (K1 [ENoSender])|apply K|apply (K1 [EEmpty])]; simpl; auto; discriminate.
    + destruct (rev (readyq s)); injection Hs as <-; apply K; simpl; auto; discriminate.
    + destruct (slots s x); injection Hs as <-; [eapply (K1 [EDropV _])|apply K]; simpl; auto; try discriminate. rewrite Er. discriminate.
    + destruct (wq s); injection Hs as <-; [apply K|eapply (K1 [EWakeS _])]; simpl; auto; try discriminate. rewrite Er. discriminate.
  - destruct (recv s) eqn:Er; try discriminate. injection Hs as <-. apply K; simpl; auto; discriminate.
  - destruct (recv s) eqn:Er; try discriminate. injection Hs as <-. apply K; simpl; auto; discriminate.
Qed.

(** what the step tells about sends and drops that have yet to call the receiver's waker: 1 a committed send, 2 the drop of the last sender *)
Definition owes (p : hpc V) : nat := match p with FWake _ => 1 | HDropWake => 2 | _ => 0 end.
Definition set_owes (s s' : chan) (i n : nat) : Prop := forall k, owes (h_pc (hs s' k)) = if k =? i then n else owes (h_pc (hs s k)).
Inductive oshape (s s' : chan) (l : label V) : list event -> Prop :=
| os_none es : tally is_commit es = 0 -> (forall k, owes (h_pc (hs s' k)) = owes (h_pc (hs s k))) -> (nsend s' = nsend s \/ nsend s <> 0 \/ s = chan_new) -> (nsend s = 0 -> nsend s' = 0 \/ s = chan_new) -> (nsend s' = 0 -> nsend s = 0) -> oshape s s' l es
| os_commit i v : owes (h_pc (hs s i)) = 0 -> set_owes s s' i 1 -> nsend s' = nsend s -> oshape s s' l [ECommit i v]
| os_last i : owes (h_pc (hs s i)) = 0 -> set_owes s s' i 2 -> nsend s = 1 -> nsend s' = 0 -> oshape s s' l []
| os_woke i es : l = LStep i -> tally is_commit es = 0 -> owes (h_pc (hs s i)) <> 0 -> set_owes s s' i 0 -> nsend s' = nsend s -> oshape s s' l es.
Lemma pcs_owes (s : chan) s' i p : pcs_upd s s' i p -> owes (h_pc (hs s i)) = owes p -> forall k, owes (h_pc (hs s' k)) = owes (h_pc (hs s k)).
Proof. intros U E k. rewrite (U k). destruct (Nat.eqb_spec k i); [subst; congruence|reflexivity]. Qed.
Lemma pcs_set_owes (s : chan) s' i p : pcs_upd s s' i p -> set_owes s s' i (owes p).
Proof. intros U k. rewrite (U k). destruct (k =? i); reflexivity. Qed.
Lemma alive_pos (s : chan) i : InvN s -> alive (h_pc (hs s i)) = true -> nsend s <> 0.
Proof. intros (l & _ & H & ->) A. apply H in A. destruct l; [destruct A|discriminate]. Qed.
Ltac pcs := first [apply pcs_set_pc | apply drop2_pcs | apply wake_pcs
  | match goal with |- pcs_upd ?s (emit ?x _) _ _ => change (pcs_upd s x) ; pcs end
  | let k := fresh in intros k; simpl; unfold upd; destruct (Nat.eqb k _); reflexivity].
Lemma chan_oshape s l s' : InvL s -> InvN s -> step N s l = Some s' -> exists es, log s' = log s ++ es /\ oshape s s' l es.
Proof.
  intros HL HN Hs.
  assert (K : forall es, tally is_commit es = 0 -> log s' = log s ++ es -> (forall k, owes (h_pc (hs s' k)) = owes (h_pc (hs s k))) -> nsend s' = nsend s -> exists es, log s' = log s ++ es /\ oshape s s' l es).
  { intros es E1 E2 E3 E4. exists es. split; [exact E2|]. apply os_none; auto; [|congruence]. intros E. left. congruence. }
  assert (K0 : log s' = log s -> (forall k, owes (h_pc (hs s' k)) = owes (h_pc (hs s k))) -> nsend s' = nsend s -> exists es, log s' = log s ++ es /\ oshape s s' l es) by (intros E1 E2 E3; apply (K []); auto; now rewrite app_nil_r).
  destruct l as [|i k|i v|i v|i w|i|i|i| |w| | |]; cbn [step] in Hs.
  - destruct (recv s) eqn:Er; try discriminate. injection Hs as <-. pose proof (L_new HL Er) as ->. exists []. split; [reflexivity|]. apply os_none; [reflexivity| |now right; right|now right|discriminate]. intros k. simpl. unfold upd. now destruct (k =? 0).
  - destruct (h_pc (hs s i)) eqn:Ep; try discriminate. destruct (h_pc (hs s k)) eqn:Ek; try discriminate. injection Hs as <-. pose proof (@alive_pos s i HN) as A. rewrite Ep in A. specialize (A eq_refl). exists []. split; [simpl; now rewrite app_nil_r|]. apply os_none; [reflexivity| |auto|tauto|discriminate].
    intros k'. simpl. unfold upd. destruct (Nat.eqb_spec k' k); [subst; now rewrite Ek|reflexivity].
  - destruct (h_pc (hs s i)) eqn:Ep; try discriminate. simpl in Hs. destruct (wq s) eqn:Eq; injection Hs as <-; [apply (K [EStart i v]); try reflexivity; apply (@pcs_owes _ _ i (TClosed v)); [apply pcs_pre|now rewrite Ep]|]. apply (K [EStart i v; EFull i v]); try reflexivity. simpl. now rewrite <- app_assoc.
  - destruct (h_pc (hs s i)) eqn:Ep; try discriminate. injection Hs as <-. apply (K [EStart i v]); try reflexivity. apply (@pcs_owes _ _ i (SNew v)); [apply pcs_pre|now rewrite Ep].
  - assert (X : forall v, owes (h_pc (hs s i)) = 0 -> s' = send_poll s i w v -> exists es, log s' = log s ++ es /\ oshape s s' (LPoll i w) es).
    { intros v O ->. destruct (poll_pcs s i w v) as (p & Hp & Hq). apply K0; [| |apply (poll_same s i w v)].
      - unfold send_poll. destruct (rdropped s); try reflexivity. destruct (h_link (hs s i)); try reflexivity. destruct (wq s), (freeq s); reflexivity.
      - apply (@pcs_owes _ _ i p Hp). rewrite O. destruct Hq as [->|(d & -> & _)]; reflexivity. }
    destruct (h_pc (hs s i)) eqn:Ep; try discriminate; injection Hs as <-; eapply X; reflexivity.
  - destruct (wake_same s) as (_ & Eh & _ & _ & _ & _ & _ & _ & En & _).
    destruct (h_pc (hs s i)) as [| |v|v|v|v|d v|d v|x v|x v|v| |] eqn:Ep; try discriminate.
    + destruct (rdropped s); injection Hs as <-; [apply (K [ENoRecv i v])|apply K0]; try reflexivity; (eapply (@pcs_owes _ _ i); [pcs|now rewrite Ep]).
    + destruct (freeq s); injection Hs as <-; [apply (K [EFull i v])|apply K0]; try reflexivity; (eapply (@pcs_owes _ _ i); [pcs|now rewrite Ep]).
    + injection Hs as <-. apply K0; try reflexivity. eapply (@pcs_owes _ _ i); [pcs|now rewrite Ep].
    + fold (drop2 N s i d v) in Hs. destruct (drop2_same N s i d v) as (_ & _ & D1 & _). assert (X : exists e1, log (drop2 N s i d v) = log s ++ e1 /\ tally is_commit e1 = 0).
      { unfold drop2. destruct (h_slot (hs s i)) as [x|]; [|exists []; simpl; rewrite app_nil_r; split; reflexivity]. rewrite return_log. simpl. eexists. split; [reflexivity|]. destruct (wq s); reflexivity. }
      destruct X as (e1 & L1 & R1). destruct d; injection Hs as <-; [apply (K e1)|apply (K (e1 ++ [ENoRecv i v]))|apply (K (e1 ++ [ECancel i v]))]; try (simpl; rewrite ?tally_app, ?R1, ?L1, ?app_assoc; reflexivity); try exact D1; try exact R1; try exact L1; (eapply (@pcs_owes _ _ i); [pcs|now rewrite Ep]).
    + injection Hs as <-. apply K0; try reflexivity. eapply (@pcs_owes _ _ i); [pcs|now rewrite Ep].
    + injection Hs as <-. exists [ECommit i v]. split; [reflexivity|]. apply os_commit; [now rewrite Ep| |reflexivity]. apply (@pcs_set_owes _ _ i (FWake v)). pcs.
    + injection Hs as <-. destruct (wake_log s) as [k Lk]. exists (map (@EWakeR V) k ++ [ESent i v]). split; [simpl; now rewrite Lk, app_assoc|]. apply (@os_woke _ _ _ i); [reflexivity|rewrite tally_app, tally_map_none; reflexivity|now rewrite Ep| |exact En]. apply (@pcs_set_owes _ _ i HIdle). apply pcs_emit. pcs.
    + injection Hs as <-. destruct (wake_log s) as [k Lk]. exists (map (@EWakeR V) k). split; [simpl; now rewrite Lk|]. apply (@os_woke _ _ _ i); [reflexivity|rewrite tally_map_none; reflexivity|now rewrite Ep| |exact En]. apply (@pcs_set_owes _ _ i HGone). pcs.
  - destruct (h_pc (hs s i)) eqn:Ep; try discriminate; injection Hs as <-; [apply (K [ECancel i v])|apply K0]; try reflexivity; (eapply (@pcs_owes _ _ i); [pcs|now rewrite Ep]).
  - destruct (h_pc (hs s i)) eqn:Ep; try discriminate. pose proof (@alive_pos s i HN) as A. rewrite Ep in A. specialize (A eq_refl). cbn zeta in Hs. destruct (Nat.eqb_spec (pred (nsend s)) 0) as [E0|E0]; injection Hs as <-; exists []; (split; [simpl; now rewrite app_nil_r|]).
    + apply (@os_last _ _ _ i); [now rewrite Ep| |lia|exact E0]. apply (@pcs_set_owes _ _ i HDropWake). pcs.
    + apply os_none; [reflexivity| |now right; left|tauto|simpl; lia]. eapply (@pcs_owes _ _ i); [pcs|now rewrite Ep].
  - destruct (recv s) eqn:Er; try discriminate. injection Hs as <-. now apply K0.
  - destruct (recv s) eqn:Er; try discriminate; injection Hs as <-; now apply K0.
  - destruct (recv s) as [| |w|w|w x|w x v|w|w| |x| |] eqn:Er; try discriminate.
    + injection Hs as <-. destruct (reg_same s w) as (_ & Eh & _ & _ & _ & _ & _ & _ & En & _). destruct (reg_log s w) as [k Lk]. apply (K (map (@EWakeR V) k)); [now rewrite tally_map_none|exact Lk|intros k'; simpl; now rewrite Eh|exact En].
    + destruct (readyq s); injection Hs as <-; now apply K0.
    + destruct (slots s x); injection Hs as <-; now apply K0.
    + injection Hs as <-. destruct (return_same N s x) as (_ & _ & En & _). apply (K (match wq s with [] => [] | j :: _ => [EHand j x] end ++ [ERecv v])); [destruct (wq s); reflexivity|simpl; now rewrite return_log, app_assoc|intros k; simpl; now rewrite return_pc|exact En].
    + destruct (nsend s) eqn:En; [|destruct w]; injection Hs as <-; [apply (K [ENoSender])|apply K0|apply (K [EEmpty])]; simpl; auto.
    + destruct (rev (readyq s)); injection Hs as <-; now apply K0.
    + destruct (slots s x); injection Hs as <-; [eapply (K [EDropV _])|apply K0]; reflexivity.
    + destruct (wq s) as [|j q] eqn:Eq; injection Hs as <-; [now apply K0|apply (K [EWakeS j]); try reflexivity]. intros k. simpl. unfold upd. destruct (Nat.eqb_spec k j); [now subst|reflexivity].
  - destruct (recv s) eqn:Er; try discriminate. injection Hs as <-. now apply K0.
  - destruct (recv s) eqn:Er; try discriminate. injection Hs as <-. now apply K0.
Qed.
Lemma shape_same s l s' es : log s' = log s ++ es -> step N s l = Some s' -> rshape s s' l es.
Proof. intros E Hs. destruct (chan_shape _ _ Hs) as (e & L & R). rewrite L in E. apply app_inv_head in E. now subst. Qed.
Lemma oshape_same s l s' es : InvL s -> InvN s -> log s' = log s ++ es -> step N s l = Some s' -> oshape s s' l es.
Proof. intros HL HN E Hs. destruct (chan_oshape _ HL HN Hs) as (e & L & R). rewrite L in E. apply app_inv_head in E. now subst. Qed.
Lemma tally_wr w k : tally (is_wr w) (map EWakeR k) = wcount w k.
Proof. unfold tally, wcount, tally. induction k as [|x k IH]; [reflexivity|]. simpl. destruct (w =? x); simpl; now rewrite IH. Qed.
Lemma tally_any_wr k : tally any_wr (map EWakeR k) = length k.
Proof. unfold tally. induction k as [|x k IH]; [reflexivity|]. simpl. now rewrite IH. Qed.
Lemma any_wr_zero w (es : list event) : tally any_wr es = 0 -> tally (is_wr w) es = 0.
Proof. unfold tally. induction es as [|[] es IH]; simpl; auto. discriminate. Qed.
Lemma any_wr_in w (es : list event) : tally any_wr es = 0 -> ~ In (EWakeR w) es.
Proof. unfold tally. induction es as [|e es IH]; intros Z I; [destruct I|]. destruct I as [->|I]; [discriminate|]. apply IH; [|exact I]. destruct e; simpl in Z; (discriminate || exact Z). Qed.
Definition registering (w : nat) (r : rpc V) : nat := match r with RReg w' => if w' =? w then 1 else 0 | _ => 0 end.

(** The receiver's waker is called at most once for each poll of [recv] that was given it. *)
Theorem C87_recv_once ls (s : chan) w : run (step N) chan_new ls = Some s -> tally (is_wr w) (log s) <= tally (recv_with w) ls.
Proof.
  intros Hr. enough (G : tally (is_wr w) (log s) + is_waker w (rwaker s) + registering w (recv s) <= tally (recv_with w) ls) by lia. revert ls s Hr.
  match goal with |- forall ls s, _ -> @?P ls s => apply (@run_hist _ _ (step N) chan_new P) end; [simpl; unfold tally; simpl; lia|]. intros ls s l s' _ IH Hs. rewrite tally_app, tally_one.
  destruct (chan_shape _ _ Hs) as (es & L & R). rewrite L, tally_app. destruct R as [es Z E1 E2|i v k r -> Ep Ew E1 E2|i k r -> Ep Ew E1 E2|w0 k r -> Er Ew E1 E2].
  - rewrite (any_wr_zero w _ Z), E1. assert (registering w (recv s') <= registering w (recv s) + (if recv_with w l then 1 else 0)); [|lia]. unfold registering at 1. destruct (recv s') as [| |w'| | | | | | | | |]; try lia. destruct (Nat.eqb_spec w' w); [|lia]. subst w'. destruct (E2 _ eq_refl) as [E|E]; rewrite E; simpl; rewrite Nat.eqb_refl; lia.
  - rewrite tally_app, tally_wr, E1, E2. pose proof (wake_count _ w Ew). change (tally (is_wr w) [ESent i v]) with 0. cbn [recv_with]. lia.
  - rewrite tally_wr, E1, E2. pose proof (wake_count _ w Ew). simpl. lia.
  - rewrite tally_wr, E1, E2. pose proof (register_count _ _ w Ew). rewrite Er in IH. simpl in *. lia.
Qed.

(** A debt 2 is left by the last sender only. *)
Lemma owes_last (s : chan) i : creach N s -> owes (h_pc (hs s i)) = 2 -> nsend s = 0.
Proof.
  intros R. enough (G : creach N s /\ forall i, owes (h_pc (hs s i)) = 2 -> nsend s = 0) by apply G. clear i. revert s R. apply reach_inv; [split; [apply reach_refl|simpl; discriminate]|]. intros s l s' [R IH] Hs. split; [exact (reach_step _ R Hs)|]. intros i O.  pose proof (InvAll_reach R) as HA. destruct (chan_oshape _ (A_L HA) (A_N HA) Hs) as (es & _ & Sh).
  destruct Sh as [es Z E1 E2 E3 E4|i0 v E1 E2 E3|i0 E1 E2 E3 E4|i0 es -> Z E1 E2 E3].
  - rewrite E1 in O. pose proof (IH i O) as Z0. destruct (E3 Z0) as [|X]; [assumption|]. subst s. discriminate.
  - rewrite E3. rewrite (E2 i) in O. destruct (i =? i0); [discriminate|]. exact (IH i O).
  - exact E4.
  - rewrite E3. rewrite (E2 i) in O. destruct (i =? i0); [discriminate|]. exact (IH i O).
Qed.

(** Every call of the receiver's waker is by a send that returns [Ok] with it, by the drop of the last sender, or by a poll of [recv]
    with another waker. *)
Theorem C87_recv_cause (s s' : chan) l es w : creach N s -> step N s l = Some s' -> log s' = log s ++ es -> In (EWakeR w) es ->
  (exists i v, l = LStep i /\ es = [EWakeR w; ESent i v]) \/ (exists i, l = LStep i /\ h_pc (hs s i) = HDropWake /\ nsend s = 0 /\ es = [EWakeR w]) \/
  (exists w', l = LRStep /\ recv s = RReg w' /\ w' <> w /\ es = [EWakeR w]).
Proof.
  intros R Hs L I. pose proof (@shape_same s l s' es L Hs) as Sh. destruct Sh as [es Z E1 E2|i v k r -> Ep Ew E1 E2|i k r -> Ep Ew E1 E2|w0 k r -> Er Ew E1 E2].
  - destruct (any_wr_in _ _ Z I).
  - left. exists i, v. split; [reflexivity|]. unfold wreg_wake in Ew. destruct (rwaker s) as [w2|]; injection Ew as <- <-; simpl in *; [|destruct I as [I|[]]; discriminate]. destruct I as [I|[I|[]]]; [congruence|discriminate].
  - right. left. exists i. split; [reflexivity|]. split; [exact Ep|]. split; [apply (@owes_last s i R); now rewrite Ep|]. unfold wreg_wake in Ew. destruct (rwaker s) as [w2|]; injection Ew as <- <-; simpl in *; [|destruct I]. destruct I as [I|[]]. congruence.
  - right. right. exists w0. split; [reflexivity|]. split; [exact Er|]. unfold wreg_register in Ew. destruct (rwaker s) as [w2|]; [destruct (Nat.eqb_spec w2 w0) as [|Ne]|]; injection Ew as <- <-; simpl in I; try (destruct I; fail). destruct I as [I|[]]. injection I as <-. split; [congruence|reflexivity].
Qed.

(** If all polls of [recv] are made with one waker, it is called at most once for each message, and once more for the drop of the last sender. *)
Theorem C87_recv_per_message ls (s : chan) w : run (step N) chan_new ls = Some s -> (forall w', In (LRecv w') ls -> w' = w) -> tally any_wr (log s) <= tally is_commit (log s) + (if nsend s =? 0 then 1 else 0).
Proof.
  intros Hr. enough (G : (forall w', In (LRecv w') ls -> w' = w) -> (rwaker s = None \/ rwaker s = Some w) /\ (forall w', recv s = RReg w' -> w' = w) /\
     exists L, NoDup L /\ (forall i, owes (h_pc (hs s i)) <> 0 <-> In i L) /\ tally any_wr (log s) + length L <= tally is_commit (log s) + (if nsend s =? 0 then 1 else 0)) by (intros A; destruct (G A) as (_ & _ & L & _ & _ & B); lia).
  revert ls s Hr. match goal with |- forall ls s, _ -> @?P ls s => apply (@run_hist _ _ (step N) chan_new P) end.
  - intros _. split; [now left|]. split; [discriminate|]. exists []. split; [constructor|]. split; [intros i; simpl; split; [congruence|tauto]|]. unfold tally; simpl; lia.
  - intros ls s l s' Hrun IH Hs A. destruct IH as (W & Rg & L & ND & HL & B); [intros w' I; apply (A w'), in_app_iff; now left|].
    assert (R : creach N s) by (exists ls; exact Hrun). pose proof (InvAll_reach R) as HA. destruct (chan_shape _ _ Hs) as (es & Le & Sh). pose proof (@oshape_same s l s' es (A_L HA) (A_N HA) Le Hs) as So.
    assert (X : (rwaker s' = None \/ rwaker s' = Some w) /\ (forall w', recv s' = RReg w' -> w' = w) /\ (tally any_wr es = 0 \/ (tally any_wr es <= 1 /\ exists i, l = LStep i /\ owes (h_pc (hs s i)) <> 0))).
    { destruct Sh as [es Z E1 E2|i v k r -> Ep Ew E1 E2|i k r -> Ep Ew E1 E2|w0 k r -> Er Ew E1 E2].
      - rewrite E1. split; [exact W|]. split; [|now left]. intros w' E. destruct (E2 w' E) as [E'| ->]; [now apply Rg|]. apply A, in_app_iff. right. now left.
      - unfold wreg_wake in Ew. rewrite E1, E2. split; [left; destruct (rwaker s); now injection Ew as <- <-|]. split; [exact Rg|]. right. split; [|exists i; rewrite Ep; split; [reflexivity|discriminate]]. rewrite tally_app, tally_any_wr. change (tally any_wr [ESent i v]) with 0. destruct (rwaker s); injection Ew as <- <-; simpl; lia.
      - unfold wreg_wake in Ew. rewrite E1, E2. split; [left; destruct (rwaker s); now injection Ew as <- <-|]. split; [exact Rg|]. right. split; [|exists i; rewrite Ep; split; [reflexivity|discriminate]]. rewrite tally_any_wr. destruct (rwaker s); injection Ew as <- <-; simpl; lia.
      - pose proof (Rg _ Er) as ->. rewrite E1, E2. assert (Y : wreg_register (rwaker s) w = (Some w, [])) by (unfold wreg_register; destruct W as [-> | ->]; [reflexivity|now rewrite Nat.eqb_refl]). rewrite Y in Ew. injection Ew as <- <-. split; [now right|]. split; [discriminate|now left]. }
    destruct X as (X1 & X2 & X3). split; [exact X1|]. split; [exact X2|]. rewrite Le, !tally_app. clear A W Rg X1 X2 Sh.
    assert (ADD : forall i n, owes (h_pc (hs s i)) = 0 -> set_owes s s' i n -> n <> 0 -> NoDup (i :: L) /\ (forall i', owes (h_pc (hs s' i')) <> 0 <-> In i' (i :: L))).
    { intros i n O S Nn. split; [constructor; [rewrite <- HL; congruence|exact ND]|]. intros i'. rewrite (S i'). destruct (Nat.eqb_spec i' i); simpl; [intuition congruence|]. rewrite HL. intuition congruence. }
    destruct So as [es Z E1 E2 E3 E4|i0 v E1 E2 E3|i0 E1 E2 E3 E4|i0 es -> Z E1 E2 E3].
    + assert (X0 : tally any_wr es = 0). { destruct X3 as [|[_ (i & -> & O)]]; [assumption|]. exfalso. clear - Hs O E1. simpl in Hs. specialize (E1 i). destruct (h_pc (hs s i)) eqn:Ep; simpl in O; try congruence; injection Hs as <-; simpl in E1; rewrite upd_same in E1; discriminate. }
      exists L. split; [exact ND|]. split; [intros i; rewrite E1; apply HL|]. rewrite Z, X0. destruct E2 as [E2|[E2| ->]]; [rewrite E2; lia| |].
      * destruct (Nat.eqb_spec (nsend s) 0); [congruence|]. destruct (nsend s' =? 0); lia.
      * assert (L = []) as ->. { destruct L as [|i L]; [reflexivity|]. exfalso. destruct (proj2 (HL i) (or_introl eq_refl)). reflexivity. } unfold tally. simpl. lia.
    + exists (i0 :: L). destruct (ADD i0 1 E1 E2) as [A1 A2]; [discriminate|]. split; [exact A1|]. split; [exact A2|]. rewrite E3. change (tally is_commit [ECommit i0 v]) with 1. change (tally any_wr [ECommit i0 v]) with 0. simpl. lia.
    + exists (i0 :: L). destruct (ADD i0 2 E1 E2) as [A1 A2]; [discriminate|]. split; [exact A1|]. split; [exact A2|]. rewrite E3 in B. rewrite E4. simpl in *. rewrite !tally_nil. lia.
    + exists (remove Nat.eq_dec i0 L). split; [now apply remove_NoDup|]. split; [intros i; rewrite remove_In, <- HL, (E2 i); destruct (Nat.eqb_spec i i0); intuition congruence|]. rewrite E3, Z. apply HL in E1. pose proof (remove_length_lt Nat.eq_dec L i0 E1). destruct X3 as [-> |[X3 _]]; lia.
Qed.

(** calls of a sender's waker: it was handed a slot, or the receiver is gone *)
Definition wakes_s (j : nat) (e : event) : bool := match e with EHand i _ | EWakeS i => j =? i | _ => false end.
Definition is_hand (e : event) : bool := match e with EHand _ _ => true | _ => false end.
Definition is_wakes (e : event) : bool := match e with EWakeS _ => true | _ => false end.
Definition frees (e : event) : bool := match e with ERecv _ | ECancel _ _ | ENoRecv _ _ => true | _ => false end.
Definition send_poll_of (j : nat) (l : label V) : bool := match l with LPoll i _ => j =? i | _ => false end.
Definition queued (s : chan) (j : nat) : nat := match h_link (hs s j) with LQueued => 1 | _ => 0 end.
Definition sshape (s s' : chan) (l : label V) (es : list event) : Prop :=
  (forall j, tally (wakes_s j) es + queued s' j <= queued s j + (if send_poll_of j l then 1 else 0)) /\ tally is_hand es <= tally frees es /\ (rdropped s = false -> tally is_wakes es = 0).
Lemma return_shape (s : chan) x : (forall k, In k (wq s) -> h_link (hs s k) = LQueued) -> exists es, log (return_slot N s x) = log s ++ es /\ (forall j, tally (wakes_s j) es + queued (return_slot N s x) j <= queued s j) /\ tally is_hand es <= 1 /\ tally frees es = 0 /\ tally is_wakes es = 0.
Proof.
  intros H. unfold return_slot. destruct (wq s) as [|k q] eqn:Eq.
  - exists []. simpl. rewrite app_nil_r. split; [reflexivity|]. split; [intros j; apply le_n|]. repeat split. unfold tally. simpl. lia.
  - exists [EHand k x]. split; [reflexivity|]. split; [|split; [unfold tally; simpl; lia|split; reflexivity]]. intros j. rewrite tally_one. simpl. unfold queued. simpl. unfold upd. destruct (Nat.eqb_spec j k) as [->|]; simpl; [|lia]. assert (E : h_link (hs s k) = LQueued) by (apply H; now left). rewrite E. lia.
Qed.
Lemma chan_sshape s l s' : InvL s -> step N s l = Some s' -> exists es, log s' = log s ++ es /\ sshape s s' l es.
Proof.
  intros H Hs.
  assert (K : forall es, log s' = log s ++ es -> (forall j, tally (wakes_s j) es = 0) -> tally is_hand es = 0 -> tally is_wakes es = 0 -> (forall j, queued s' j <= queued s j + (if send_poll_of j l then 1 else 0)) -> exists es, log s' = log s ++ es /\ sshape s s' l es).
  { intros es E1 E2 E3 E4 E5. exists es. split; [exact E1|]. split; [intros j; rewrite E2; apply E5|]. split; [lia|auto]. }
  assert (K0 : log s' = log s -> (forall j, queued s' j <= queued s j + (if send_poll_of j l then 1 else 0)) -> exists es, log s' = log s ++ es /\ sshape s s' l es) by (intros E1 E2; apply (K []); auto; now rewrite app_nil_r).
  assert (U : forall i h, h_link h <> LQueued \/ h_link h = h_link (hs s i) -> forall j, match h_link (upd (hs s) i h j) with LQueued => 1 | _ => 0 end <= queued s j).
  { intros i h D j. unfold queued, upd. destruct (Nat.eqb_spec j i); [subst|lia]. destruct D as [D|D]; [destruct (h_link h); try lia; congruence|rewrite D; lia]. }
  assert (U0 : forall i h, h_link h <> LQueued \/ h_link h = h_link (hs s i) -> forall j, match h_link (upd (hs s) i h j) with LQueued => 1 | _ => 0 end <= queued s j + 0) by (intros i h D j; rewrite Nat.add_0_r; now apply U).
  destruct l as [|i k|i v|i v|i w|i|i|i| |w| | |]; cbn [step] in Hs.
  - destruct (recv s) eqn:Er; try discriminate. injection Hs as <-. apply K0; [reflexivity|]. unfold queued at 1; simpl. apply U0. left. discriminate.
  - destruct (h_pc (hs s i)) eqn:Ep; try discriminate. destruct (h_pc (hs s k)) eqn:Ek; try discriminate. injection Hs as <-. apply K0; [reflexivity|]. unfold queued at 1; simpl. apply U0. left. discriminate.
  - destruct (h_pc (hs s i)) eqn:Ep; try discriminate. simpl in Hs. destruct (wq s) eqn:Eq; injection Hs as <-; [apply (K [EStart i v]); try reflexivity; unfold queued at 1; simpl; apply U0; now right|]. apply (K [EStart i v; EFull i v]); try reflexivity; [simpl; now rewrite <- app_assoc|]. intros j. simpl. unfold queued. simpl. lia.
  - destruct (h_pc (hs s i)) eqn:Ep; try discriminate. injection Hs as <-. apply (K [EStart i v]); try reflexivity. unfold queued at 1; simpl; apply U0; now right.
  - assert (X : forall v, s' = send_poll s i w v -> exists es, log s' = log s ++ es /\ sshape s s' (LPoll i w) es).
    { intros v ->. apply K0; [unfold send_poll; destruct (rdropped s); try reflexivity; destruct (h_link (hs s i)); try reflexivity; destruct (wq s), (freeq s); reflexivity|].
      intros j. cbn [send_poll_of]. unfold queued. destruct (Nat.eqb_spec j i) as [->|Ne]; [destruct (h_link (hs _ i)); lia|]. rewrite poll_pc_other by exact Ne. lia. }
    destruct (h_pc (hs s i)) eqn:Ep; try discriminate; injection Hs as <-; eapply X; reflexivity.
  - destruct (h_pc (hs s i)) as [| |v|v|v|v|d v|d v|x v|x v|v| |] eqn:Ep; try discriminate.
    + destruct (rdropped s); injection Hs as <-; [apply (K [ENoRecv i v])|apply K0]; try reflexivity; unfold queued at 1; simpl; apply U0; now right.
    + destruct (freeq s); injection Hs as <-; [apply (K [EFull i v])|apply K0]; try reflexivity; unfold queued at 1; simpl; apply U0; now right.
    + injection Hs as <-. apply K0; [reflexivity|]. unfold queued at 1; simpl; apply U0. left. discriminate.
    + set (s1 := set_h s i _) in Hs. assert (Q1 : forall j, queued s1 j = queued s j) by (intros j; unfold queued, s1; simpl; unfold upd; destruct (Nat.eqb_spec j i); [now subst|reflexivity]).
      pose proof (L_h H i) as Hk. unfold hok in Hk. rewrite Ep in Hk.
      assert (X : exists e1, log (match h_slot (hs s i) with Some x => return_slot N s1 x | None => s1 end) = log s ++ e1 /\ (forall j, tally (wakes_s j) e1 + queued (match h_slot (hs s i) with Some x => return_slot N s1 x | None => s1 end) j <= queued s j) /\ tally is_hand e1 <= 1 /\ tally frees e1 = 0 /\ tally is_wakes e1 = 0 /\ (h_slot (hs s i) = None -> tally is_hand e1 = 0)).
      { destruct (h_slot (hs s i)) as [x|] eqn:Eh.
        - assert (HL1 : forall k, In k (wq s1) -> h_link (hs s1 k) = LQueued) by (intros k Ik; apply (L_in H) in Ik; unfold s1; simpl; unfold upd; destruct (Nat.eqb_spec k i); [now subst|exact Ik]).
          destruct (@return_shape s1 x HL1) as (e1 & L1 & A1 & A2 & A3 & A4). exists e1. split; [exact L1|]. split; [intros j; rewrite <- Q1; apply A1|]. repeat split; auto. discriminate.
        - exists []. rewrite app_nil_r. split; [reflexivity|]. split; [intros j; rewrite Q1; apply le_n|]. repeat split; auto. }
      destruct X as (e1 & L1 & A1 & A2 & A3 & A4 & A5). set (s2 := match h_slot (hs s i) with Some x => return_slot N s1 x | None => s1 end) in *.
      assert (Q2 : forall p j, queued (set_pc s2 i p) j = queued s2 j) by (intros p j; unfold queued; simpl; unfold upd; destruct (Nat.eqb_spec j i); [now subst|reflexivity]).
      destruct d as [x| |]; injection Hs as <-.
      * exists e1. split; [exact L1|]. split; [intros j; rewrite Q2; specialize (A1 j); simpl; lia|]. split; [|auto]. rewrite A5 by apply Hk. lia.
      * exists (e1 ++ [ENoRecv i v]). split; [simpl; now rewrite L1, app_assoc|]. split; [intros j; change (queued (finish s2 i (ENoRecv i v)) j) with (queued (set_pc s2 i HIdle) j); rewrite Q2, tally_app; specialize (A1 j); change (tally (wakes_s j) [ENoRecv i v]) with 0; simpl; lia|]. rewrite !tally_app. change (tally frees [ENoRecv i v]) with 1. split; [change (tally is_hand [ENoRecv i v]) with 0; lia|]. intros _. rewrite A4. reflexivity.
      * exists (e1 ++ [ECancel i v]). split; [simpl; now rewrite L1, app_assoc|]. split; [intros j; change (queued (finish s2 i (ECancel i v)) j) with (queued (set_pc s2 i HIdle) j); rewrite Q2, tally_app; specialize (A1 j); change (tally (wakes_s j) [ECancel i v]) with 0; simpl; lia|]. rewrite !tally_app. change (tally frees [ECancel i v]) with 1. split; [change (tally is_hand [ECancel i v]) with 0; lia|]. intros _. rewrite A4. reflexivity.
    + injection Hs as <-. apply K0; [reflexivity|]. unfold queued at 1; simpl; apply U0; now right.
    + injection Hs as <-. apply (K [ECommit i v]); try reflexivity. unfold queued at 1; simpl; apply U0; now right.
    + injection Hs as <-. destruct (wake_same s) as (_ & Eh & _). destruct (wake_log s) as [k Lk]. apply (K (map (@EWakeR V) k ++ [ESent i v])); try (intros; rewrite tally_app, tally_map_none; reflexivity); [simpl; now rewrite Lk, app_assoc|]. unfold queued at 1. unfold finish, set_pc. simpl. rewrite Eh. apply U0. now right.
    + injection Hs as <-. destruct (wake_same s) as (_ & Eh & _). destruct (wake_log s) as [k Lk]. apply (K (map (@EWakeR V) k)); try (intros; rewrite tally_map_none; reflexivity); [exact Lk|]. unfold queued at 1. unfold set_pc. simpl. rewrite Eh. apply U0. now right.
  - destruct (h_pc (hs s i)) eqn:Ep; try discriminate; injection Hs as <-; [apply (K [ECancel i v])|apply K0]; try reflexivity; unfold queued at 1; simpl; apply U0; now right.
  - destruct (h_pc (hs s i)) eqn:Ep; try discriminate; injection Hs as <-. apply K0; [reflexivity|]. unfold queued at 1; simpl; apply U0; now right.
  - destruct (recv s) eqn:Er; try discriminate. injection Hs as <-. apply K0; [reflexivity|]. intros j. unfold queued. simpl. lia.
  - destruct (recv s) eqn:Er; try discriminate; injection Hs as <-; (apply K0; [reflexivity|]); intros j; unfold queued; simpl; lia.
  - destruct (recv s) as [| |w|w|w x|w x v|w|w| |x| |] eqn:Er; try discriminate.
    + injection Hs as <-. destruct (reg_same s w) as (_ & Eh & _). destruct (reg_log s w) as [k Lk]. apply (K (map (@EWakeR V) k)); try (intros; now rewrite tally_map_none); [exact Lk|]. intros j. unfold queued. simpl. rewrite Eh. lia.
    + destruct (readyq s); injection Hs as <-; (apply K0; [reflexivity|]); intros j; unfold queued; simpl; lia.
    + destruct (slots s x); injection Hs as <-; (apply K0; [reflexivity|]); intros j; unfold queued; simpl; lia.
    + injection Hs as <-. destruct (@return_shape s x (fun k => proj1 (L_in H k))) as (e1 & L1 & A1 & A2 & A3 & A4). exists (e1 ++ [ERecv v]). split; [simpl; now rewrite L1, app_assoc|]. split; [intros j; rewrite tally_app; change (tally (wakes_s j) [ERecv v]) with 0; specialize (A1 j); unfold queued in *; simpl; lia|]. rewrite !tally_app. change (tally frees [ERecv v]) with 1. split; [change (tally is_hand [ERecv v]) with 0; lia|]. intros _. rewrite A4. reflexivity.
    + destruct (nsend s) eqn:En; [|destruct w]; injection Hs as <-; [apply (K [ENoSender])|apply K0|apply (K [EEmpty])]; try reflexivity; intros j; unfold queued; simpl; lia.
    + destruct (rev (readyq s)); injection Hs as <-; (apply K0; [reflexivity|]); intros j; unfold queued; simpl; lia.
    + destruct (slots s x); injection Hs as <-; [eapply (K [EDropV _])|apply K0]; try reflexivity; intros j; unfold queued; simpl; lia.
    + destruct (wq s) as [|k q] eqn:Eq; injection Hs as <-; [apply K0; [reflexivity|]; intros j; unfold queued; simpl; lia|]. exists [EWakeS k]. split; [reflexivity|]. split; [|split; [reflexivity|rewrite (L_drop H), Er; discriminate]].
      intros j. rewrite tally_one. unfold queued. simpl. unfold upd. destruct (Nat.eqb_spec j k) as [->|]; simpl; [|lia]. assert (E : h_link (hs s k) = LQueued) by (apply (L_in H); rewrite Eq; now left). rewrite E. lia.
  - destruct (recv s) eqn:Er; try discriminate. injection Hs as <-. apply K0; [reflexivity|]. intros j. unfold queued. simpl. lia.
  - destruct (recv s) eqn:Er; try discriminate. injection Hs as <-. apply K0; [reflexivity|]. intros j. unfold queued. simpl. lia.
Qed.

(** A sender's waker is called at most once for each poll of its send. *)
Theorem C87_send_once ls (s : chan) j : run (step N) chan_new ls = Some s -> tally (wakes_s j) (log s) <= tally (send_poll_of j) ls.
Proof.
  intros Hr. enough (G : tally (wakes_s j) (log s) + queued s j <= tally (send_poll_of j) ls) by lia. revert ls s Hr.
  match goal with |- forall ls s, _ -> @?P ls s => apply (@run_hist _ _ (step N) chan_new P) end; [unfold queued, tally; simpl; lia|]. intros ls s l s' Hr IH Hs. assert (R : creach N s) by (exists ls; exact Hr).
  destruct (chan_sshape _ (A_L (InvAll_reach R)) Hs) as (es & L & S & _). rewrite L, !tally_app, tally_one. specialize (S j). lia.
Qed.
(** At most one waiting sender is woken for each slot that becomes free (a message received, a send given up or failed); the others
    only when the receiver is gone. *)
Theorem C87_send_per_slot s : creach N s -> tally is_hand (log s) <= tally frees (log s) /\ (rdropped s = false -> tally is_wakes (log s) = 0).
Proof.
  intros R. enough (G : creach N s /\ (tally is_hand (log s) <= tally frees (log s) /\ (rdropped s = false -> tally is_wakes (log s) = 0))) by apply G. revert s R. apply reach_inv; [split; [apply reach_refl|split; [unfold tally; simpl; lia|reflexivity]]|].
  intros s l s' [R [I1 I2]] Hs. split; [exact (reach_step _ R Hs)|]. pose proof (A_L (InvAll_reach R)) as H. destruct (chan_sshape _ H Hs) as (es & L & _ & S1 & S2). rewrite L, !tally_app. split; [lia|]. intros D. assert (D0 : rdropped s = false) by (destruct (rdropped s) eqn:E; [|reflexivity]; rewrite (@rdropped_mono _ _ _ _ _ H Hs E) in D; discriminate). rewrite I2, S2; auto.
Qed.
End Channel.

Section Arbiter.
Context {V : Type}.
Notation arb := (@arb V).
Definition is_gwake (j : nat) (e : aevent) : bool := match e with GWake i _ => j =? i | _ => false end.
Definition is_gwait (j : nat) (e : aevent) : bool := match e with GWait i _ => j =? i | _ => false end.
Definition any_gwake (e : aevent) : bool := match e with GWake _ _ => true | _ => false end.
Definition is_release (e : aevent) : bool := match e with GRelease _ => true | _ => false end.
Definition aqueued (s : arb) (j : nat) : nat := match a_link (cl s j) with KQueued => 1 | _ => 0 end.
(** A client's waker is called at most once each time it begins to wait, and at most one waker each time a guard is dropped. *)
Theorem C87_access_once v (s : arb) : areach v s -> (forall j, tally (is_gwake j) (alog s) <= tally (is_gwait j) (alog s)) /\ tally any_gwake (alog s) <= tally is_release (alog s).
Proof.
  intros R. enough (G : areach v s /\ (forall j, tally (is_gwake j) (alog s) + aqueued s j <= tally (is_gwait j) (alog s)) /\ tally any_gwake (alog s) <= tally is_release (alog s)) by (destruct G as (_ & G1 & G2); split; [intros j; specialize (G1 j); lia|exact G2]).
  revert s R. apply reach_inv; [split; [apply reach_refl|split; [intros j; unfold aqueued, tally; simpl; lia|unfold tally; simpl; lia]]|].
  intros s l s' [R [I1 I2]] Hs. split; [exact (reach_step _ R Hs)|]. pose proof (AInv_reach R) as H.
  assert (X : exists es, alog s' = alog s ++ es /\ (forall j, tally (is_gwake j) es + aqueued s' j <= aqueued s j + tally (is_gwait j) es) /\ tally any_gwake es <= tally is_release es); [|destruct X as (es & L & X1 & X2); rewrite L; split; [intros j; rewrite !tally_app; specialize (X1 j); specialize (I1 j); lia|rewrite !tally_app; lia]].
  clear I1 I2.
  assert (U : forall i c, a_link c <> KQueued \/ a_link c = a_link (cl s i) -> forall j, match a_link (upd (cl s) i c j) with KQueued => 1 | _ => 0 end <= aqueued s j).
  { intros i c D j. unfold aqueued, upd. destruct (Nat.eqb_spec j i); [subst|lia]. destruct D as [D|D]; [destruct (a_link c); try lia; congruence|rewrite D; lia]. }
  assert (K : forall es, alog s' = alog s ++ es -> (forall j, tally (is_gwake j) es = 0) -> tally any_gwake es = 0 -> (forall j, aqueued s' j <= aqueued s j) -> exists es, alog s' = alog s ++ es /\ (forall j, tally (is_gwake j) es + aqueued s' j <= aqueued s j + tally (is_gwait j) es) /\ tally any_gwake es <= tally is_release es).
  { intros es E1 E2 E3 E4. exists es. split; [exact E1|]. split; [intros j; rewrite E2; specialize (E4 j); lia|lia]. }
  assert (K0 : alog s' = alog s -> (forall j, aqueued s' j <= aqueued s j) -> exists es, alog s' = alog s ++ es /\ (forall j, tally (is_gwake j) es + aqueued s' j <= aqueued s j + tally (is_gwait j) es) /\ tally any_gwake es <= tally is_release es) by (intros E1 E2; apply (K []); auto; now rewrite app_nil_r).
  destruct l as [i|i w|i|i|i|i|i x]; simpl in Hs; destruct (a_pc (cl s i)) eqn:Ep; try discriminate; injection Hs as <-.
  - apply K0; [reflexivity|]. unfold aqueued at 1. simpl. apply U. left. discriminate.
  - unfold do_poll in *. destruct (queue_empty s && negb (taken s))%bool; [apply K0; [reflexivity|]; unfold aqueued at 1; simpl; apply U; now right|]. destruct (a_link (cl s i)) eqn:El.
    + exists [GWait i (aseq s)]. split; [reflexivity|]. split; [|reflexivity]. intros j. rewrite !tally_one. simpl. unfold aqueued. simpl. unfold upd. destruct (Nat.eqb_spec j i); simpl; lia.
    + apply K0; [reflexivity|]. intros j. lia.
    + apply K0; [reflexivity|]. unfold aqueued at 1. simpl. apply U. now right.
  - apply (K [GGrant i (a_seq (cl s i))]); try reflexivity; unfold remove_link; destruct (a_link (cl s i)); try reflexivity; unfold aqueued at 1; simpl; apply U; left; discriminate.
  - apply (K [GCancel i]); try reflexivity; unfold remove_link; destruct (a_link (cl s i)); try reflexivity; unfold aqueued at 1; simpl; apply U; left; discriminate.
  - unfold do_try in *. destruct (queue_empty s && negb (taken s))%bool; [apply (K [GGrant i None])|apply (K [GNone i])]; try reflexivity; unfold aqueued at 1; simpl; apply U; left; discriminate.
  - unfold do_release in *. simpl in *. destruct (awq s) as [|k q] eqn:Eq; [apply (K [GRelease i]); try reflexivity; unfold aqueued at 1; simpl; apply U; left; discriminate|]. eexists [GRelease i; _]. split; [simpl; rewrite <- app_assoc; reflexivity|]. split; [|unfold tally; simpl; lia].
    intros j. change (tally (is_gwait j) _) with 0. unfold tally. simpl. assert (Ek : a_link (cl s k) = KQueued) by (apply (I_in H); rewrite Eq; now left). unfold aqueued. simpl. unfold upd. destruct (Nat.eqb_spec j k) as [->|]; simpl; [rewrite Ek; lia|]. destruct (j =? i); simpl; lia.
  - apply K0; [reflexivity|]. intros j. unfold aqueued. simpl. lia.
Qed.
End Arbiter.

(** A reader polls [wait] with waker 5 and sleeps; two writes: the waker is called once. *)
Example C87_signal_case : exists s : @sig nat, run (sstep KSignal) sig_new [STakeReader 0; SPoll 0 5; SStep 0; SWrite 1 7; SWake 1; SWrite 1 8; SWake 1] = Some s /\
  tally (is_vwake 5) (slog s) = 1 /\ tally is_put (slog s) = 2.
Proof. eexists. split; [vm_compute; reflexivity|]. split; vm_compute; reflexivity. Qed.
(** The receiver sleeps, a message arrives: its waker is called; it polls again (registering again) and the next message calls it again.  A sender waits for the one slot: it is woken by the receive. *)
Example C87_channel_case : exists s : chan nat, run (step 1) chan_new ([LSplit; LClone 0 1; LRecv 5; LRStep; LRStep; LRStep; LTry 0 7; LStep 0; LStep 0; LStep 0; LStep 0; LStep 0; LSend 1 8; LPoll 1 50; LRecv 5; LRStep; LRStep; LRStep; LRStep]
    ++ [LPoll 1 50; LStep 1; LStep 1; LStep 1; LStep 1; LStep 1]) = Some s /\ log s = [EStart 0 7; ECommit 0 7; EWakeR 5; ESent 0 7; EStart 1 8; EHand 1 0; ERecv 7; ECommit 1 8; EWakeR 5; ESent 1 8].
Proof. eexists. split; vm_compute; reflexivity. Qed.
Example C87_access_case : exists s, run astep (arb_new 5) [ATry 0; AAccess 1; APoll 1 50; AAccess 2; APoll 2 60; ARelease 0; APoll 1 50; AFinish 1; ARelease 1] = Some s /\
  alog s = [GGrant 0 None; GWait 1 0; GWait 2 1; GRelease 0; GWake 1 50; GGrant 1 (Some 0); GRelease 1; GWake 2 60].
Proof. eexists. split; vm_compute; reflexivity. Qed.
Print Assumptions C87_signal_once.
Print Assumptions C87_signal_cause.
Print Assumptions C87_signal_per_write.
Print Assumptions C87_recv_once.
Print Assumptions C87_recv_cause.
Print Assumptions C87_recv_per_message.
Print Assumptions C87_send_once.
Print Assumptions C87_send_per_slot.
Print Assumptions C87_access_once.
