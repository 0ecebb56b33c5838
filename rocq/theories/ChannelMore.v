(** Consequences of the channel invariants, in the form used by the property theorems. *)
From Verif Require Import Base LTS WakerRegModel ChannelModel ChannelSpec ChannelInv ChannelOwn ChannelProofs ChannelTrace.
From Coq Require Import Sorting.Sorted Permutation.
Set Implicit Arguments.

Section M.
Context {V : Type} (N : nat).
Notation chan := (chan V).
Notation step := (@step V N).
Notation event := (event V).

(** * C23 *)
Lemma place_unique (s : chan) x p q : creach N s -> located s x p -> located s x q -> p = q.
Proof.
  intros Hr Hp Hq. destruct (A_O (InvAll_reach Hr)) as [(wh & H1 & _) _ _ _ _].
  assert (X : forall p, located s x p -> wh x = match p with AtFree => PFree | AtReady => PReady | AtSender j => PH j | AtReceiver => PR end).
  { intros [| |j|] H; simpl in H; [now apply (O_f H1)|now apply (O_r H1)|now apply (O_h H1)|now apply (O_v H1)]. }
  apply X in Hp, Hq. rewrite Hp in Hq. destruct p, q; congruence.
Qed.

Lemma place_exists (s : chan) x : creach N s -> x < N -> recv s <> RNone -> rdropped s = false -> exists p, located s x p.
Proof.
  intros Hr Hx Hn Hd. destruct (A_O (InvAll_reach Hr)) as [(wh & H1 & _ & H3) _ _ _ _].
  destruct (wh x) as [| |j| |] eqn:E.
  - exists AtFree. now apply (O_f H1).
  - exists AtReady. now apply (O_r H1).
  - exists (AtSender j). now apply (O_h H1).
  - exists AtReceiver. now apply (O_v H1).
  - destruct (H3 x Hx E); congruence.
Qed.

Lemma place_bound (s : chan) x p : creach N s -> located s x p -> x < N.
Proof.
  intros Hr Hp. destruct (A_O (InvAll_reach Hr)) as [(wh & H1 & H2 & _) _ _ _ _].
  destruct (Nat.lt_ge_cases x N) as [|Hge]; [auto|]. specialize (H2 x Hge).
  destruct p; simpl in Hp; [apply (O_f H1) in Hp|apply (O_r H1) in Hp|apply (O_h H1) in Hp|apply (O_v H1) in Hp]; congruence.
Qed.

Lemma queues_nodup (s : chan) : creach N s -> NoDup (freeq s) /\ NoDup (readyq s) /\ length (freeq s) <= N /\ length (readyq s) <= N.
Proof.
  intros Hr. pose proof (A_O (InvAll_reach Hr)) as HO. pose proof HO as [(wh & H1 & H2 & _) _ _ _ _].
  split; [apply (O_ndf H1)|]. split; [apply (O_ndr H1)|]. split; apply own_bound.
  - apply (O_ndf H1).
  - intros x. now apply free_lt.
  - apply (O_ndr H1).
  - intros x. now apply ready_lt.
Qed.

Lemma initialised (s : chan) x : creach N s -> (In x (readyq s) -> slots s x <> None) /\ (In x (freeq s) -> slots s x = None).
Proof. intros Hr. pose proof (A_O (InvAll_reach Hr)) as HO. split; [apply (IO_ready HO)|apply (IO_free HO)]. Qed.

(** * What a step may report *)
Definition may_emit (s : chan) (e : event) : Prop :=
  match e with
  | EStart j v => h_pc (hs s j) = HIdle
  | ECommit j v => exists x, h_pc (hs s j) = FPush x v
  | ESent j v => h_pc (hs s j) = FWake v
  | EFull j v => wq s <> [] \/ freeq s = []
  | ENoRecv j v => h_pc (hs s j) = TClosed v /\ rdropped s = true \/ h_pc (hs s j) = SDrop2 DErr v
  | ECancel j v => h_pc (hs s j) = SNew v \/ h_pc (hs s j) = SDrop2 DCancel v
  | EHand j x => exists q, wq s = j :: q
  | EWakeS j => recv s = RWakeAll /\ exists q, wq s = j :: q
  | ERecv v => exists w x, recv s = RRet w x v
  | EEmpty => recv s = RChk None /\ nsend s <> 0
  | ENoSender => (exists w, recv s = RChk w) /\ nsend s = 0
  | EWakeR w => rwaker s = Some w
  | EDropV v => exists x, recv s = RDrop x
  end.

Lemma wake_log2 (s : chan) : exists k, log (wake_receiver s) = log s ++ map (@EWakeR V) k /\ forall w, In w k -> rwaker s = Some w.
Proof.
  unfold wake_receiver. destruct (rwaker s) as [w|] eqn:E; simpl.
  - exists [w]. split; [reflexivity|]. intros w' [<-|[]]. reflexivity.
  - exists []. split; [reflexivity|]. intros w' [].
Qed.
Lemma reg_log2 (s : chan) w0 : exists k, log (register_receiver s w0) = log s ++ map (@EWakeR V) k /\ forall w, In w k -> rwaker s = Some w.
Proof.
  unfold register_receiver, wreg_register. destruct (rwaker s) as [w|] eqn:E; [destruct (Nat.eqb w w0)|]; simpl.
  - exists []. split; [reflexivity|]. intros w' [].
  - exists [w]. split; [reflexivity|]. intros w' [<-|[]]. reflexivity.
  - exists []. split; [reflexivity|]. intros w' [].
Qed.

Ltac ev0 := exists (@nil event); split; [simpl; now rewrite ?app_nil_r|simpl; tauto].
Ltac ev1 := eexists; split; [simpl; rewrite <- ?app_assoc; reflexivity|];
  let e := fresh in let H := fresh in intros e H; simpl in H; repeat (destruct H as [H|H]; [subst e; simpl; eauto; try congruence|]); try destruct H.

Lemma step_events s l s' : InvL s -> step s l = Some s' ->
  exists evs, log s' = log s ++ evs /\ forall e, In e evs -> may_emit s e.
Proof.
  intros HL Hs. destruct l as [|j k|j v|j v|j w|j|j|j| |w| | |]; simpl in Hs.
  - sc Hs. ev0.
  - sc Hs. ev0.
  - sc Hs; ev1. left. congruence.
  - sc Hs; ev1.
  - sc Hs; (destruct (poll_same s j w v) as (_ & _ & _ & _ & _ & _ & _ & El & _); exists []; rewrite El, app_nil_r; split; [reflexivity|simpl; tauto]).
  - destruct (wake_log2 s) as (kk & Ewl & Hkk).
    destruct (h_pc (hs s j)) as [| |v|v|v|v|d v|d v|x v|x v|v| |] eqn:E; try discriminate.
    + sc Hs; [ev1; left; auto|ev0].
    + sc Hs; [ev1|ev0].
    + sc Hs; ev0.
    + fold (drop2 N s j d v) in Hs.
      assert (El : exists evs, log (drop2 N s j d v) = log s ++ evs /\ forall e, In e evs -> may_emit s e).
      { unfold drop2. destruct (h_slot (hs s j)).
        - rewrite return_log. simpl. destruct (wq s) as [|k q] eqn:Eq; eexists; (split; [reflexivity|]); simpl; [tauto|].
          intros e [<-|[]]. simpl. eauto.
        - ev0. }
      destruct El as (evs & El & Ha).
      sc Hs; simpl; rewrite El, <- ?app_assoc.
      * exists evs. auto.
      * eexists; split; [reflexivity|]. intros e He. apply in_app_iff in He as [He|[<-|[]]]; [auto|]. simpl. auto.
      * eexists; split; [reflexivity|]. intros e He. apply in_app_iff in He as [He|[<-|[]]]; [auto|]. simpl. auto.
    + sc Hs; ev0.
    + sc Hs; ev1.
    + sc Hs. simpl. rewrite Ewl, <- app_assoc. eexists; split; [reflexivity|].
      intros e He. apply in_app_iff in He as [He|[<-|[]]]; [|simpl; auto].
      apply in_map_iff in He as (w & <- & Hw). simpl. auto.
    + sc Hs. simpl. rewrite Ewl. eexists; split; [reflexivity|].
      intros e He. apply in_map_iff in He as (w & <- & Hw). simpl. auto.
  - sc Hs; [ev1|ev0].
  - sc Hs; ev0.
  - sc Hs; ev0.
  - sc Hs; ev0.
  - destruct (recv s) as [| |w|w|w x|w x v|w|w| |x| |] eqn:Er; try discriminate.
    + sc Hs. simpl. destruct (reg_log2 s w) as (kk & El & Hkk). rewrite El. eexists; split; [reflexivity|].
      intros e He. apply in_map_iff in He as (w' & <- & Hw). simpl. auto.
    + sc Hs; ev0.
    + sc Hs; ev0.
    + sc Hs. simpl. rewrite return_log, <- app_assoc. eexists; split; [reflexivity|].
      intros e He. apply in_app_iff in He as [He|[<-|[]]]; [|simpl; eauto].
      destruct (wq s) as [|k q] eqn:Eq; [destruct He|destruct He as [<-|[]]]. simpl. eauto.
    + sc Hs; [ev1|ev0|ev1; split; [auto|congruence]].
    + sc Hs; ev0.
    + sc Hs; [ev1|ev0].
    + sc Hs; [ev0|ev1].
  - sc Hs; ev0.
  - sc Hs; ev0.
Qed.

Lemma emits_may (s s' : chan) l e : creach N s -> step s l = Some s' -> emits s s' e -> may_emit s e.
Proof.
  intros Hr Hs (evs & El & Hin). destruct (step_events l (A_L (InvAll_reach Hr)) Hs) as (evs' & El' & H).
  rewrite El in El'. apply app_inv_head in El'. subst evs'. auto.
Qed.

(** a dropper that reports NoReceiver does so for cause *)
Definition InvE (s : chan) : Prop :=
  forall j v, h_pc (hs s j) = SDrop1 DErr v \/ h_pc (hs s j) = SDrop2 DErr v -> rdropped s = true.

Lemma rdropped_mono s l s' : InvL s -> step s l = Some s' -> rdropped s = true -> rdropped s' = true.
Proof.
  intros HL Hs Hd. destruct l as [|j k|j v|j v|j w|j|j|j| |w| | |]; simpl in Hs; try (sc Hs; simpl; congruence).
  - assert (X : forall v, rdropped (send_poll s j w v) = true).
    { intros v. destruct (poll_same s j w v) as (_ & _ & _ & _ & _ & _ & _ & _ & ->). exact Hd. }
    sc Hs; apply X.
  - destruct (wake_same s) as (_ & _ & _ & _ & _ & Ew & _).
    destruct (h_pc (hs s j)) as [| |v|v|v|v|d v|d v|x v|x v|v| |] eqn:E; try discriminate; try (sc Hs; simpl; congruence).
    + fold (drop2 N s j d v) in Hs. destruct (drop2_same N s j d v) as (_ & _ & _ & _ & _ & _ & E4 & _).
      sc Hs; simpl; congruence.
  - destruct (recv s) as [| |w|w|w x|w x v|w|w| |x| |] eqn:Er; try discriminate; try (sc Hs; simpl; congruence).
    + sc Hs. destruct (reg_same s w) as (_ & _ & _ & _ & _ & E & _). simpl. congruence.
    + sc Hs. simpl. now rewrite return_rdropped.
Qed.

(** every step changes the pc of at most one handle *)
Lemma InvE_step s l s' : InvL s -> InvE s -> step s l = Some s' -> InvE s'.
Proof.
  intros HL HE Hs. pose proof (rdropped_mono l HL Hs) as Hm.
  assert (F : (forall k, h_pc (hs s' k) = h_pc (hs s k)) -> InvE s').
  { intros Hp k v. rewrite Hp. intros H. apply Hm. eapply HE; eauto. }
  assert (G : forall j p, pcs_upd s s' j p -> (forall v, p = SDrop1 DErr v \/ p = SDrop2 DErr v -> rdropped s' = true) -> InvE s').
  { intros j p Hp Hq k v. rewrite Hp. destruct (Nat.eqb k j); [apply Hq|]. intros H. apply Hm. eapply HE; eauto. }
  destruct l as [|j k|j v|j v|j w|j|j|j| |w| | |]; simpl in Hs.
  - destruct (recv s) eqn:Er; try discriminate. injection Hs as <-. pose proof (L_new HL Er) as ->.
    intros j v. simpl. unfold upd. destruct (j =? 0); simpl; intros [?|?]; discriminate.
  - sc Hs. apply (G k HIdle); [|intros ? [?|?]; discriminate]. intros i. simpl. unfold upd. destruct (i =? k); reflexivity.
  - sc Hs; [|apply F; auto]. apply (G j (TClosed v)); [apply pcs_pre|intros ? [?|?]; discriminate].
  - sc Hs. apply (G j (SNew v)); [apply pcs_pre|intros ? [?|?]; discriminate].
  - assert (X : forall v, s' = send_poll s j w v -> h_pc (hs s j) = SNew v \/ h_pc (hs s j) = SWait v -> InvE s').
    { intros v -> Hpc. destruct (poll_pcs s j w v) as (p & Hp & Hq). apply (G j p Hp). intros u Hu.
      assert (Hpj : h_pc (hs (send_poll s j w v) j) = p) by (rewrite Hp, Nat.eqb_refl; reflexivity).
      destruct (poll_same s j w v) as (_ & _ & _ & _ & _ & _ & _ & _ & ->).
      unfold send_poll in Hpj. destruct (rdropped s) eqn:Ed; [reflexivity|exfalso].
      pose proof (L_h HL j) as Hk. unfold hok in Hk.
      destruct (h_link (hs s j)) eqn:El.
      - destruct (wq s); [destruct (freeq s)|]; simpl in Hpj; rewrite upd_same in Hpj; simpl in Hpj; subst p; destruct Hu; discriminate.
      - simpl in Hpj; rewrite upd_same in Hpj; simpl in Hpj; subst p; destruct Hu; discriminate.
      - simpl in Hpj; rewrite upd_same in Hpj; simpl in Hpj. destruct (h_slot (hs s j)) eqn:Es; [subst p; destruct Hu; discriminate|].
        destruct Hpc as [Hpc|Hpc]; rewrite Hpc in Hk; [destruct Hk; congruence|].
        pose proof (L_pop HL j Hpc El Es). congruence. }
    destruct (h_pc (hs s j)) eqn:E; try discriminate; injection Hs as Hs; symmetry in Hs; eapply X; eauto.
  - destruct (h_pc (hs s j)) as [| |v|v|v|v|d v|d v|x v|x v|v| |] eqn:E; try discriminate.
    + sc Hs; (eapply G; [try apply pcs_emit; apply (pcs_set_pc s j)|intros ? [?|?]; discriminate]).
    + sc Hs; (eapply G; [try apply pcs_emit; apply (pcs_set_pc s j)|intros ? [?|?]; discriminate]).
    + sc Hs. eapply G; [apply (pcs_set_h s j)|]. simpl. intros u [Hu|Hu]; [discriminate|]. eapply HE. left. rewrite E. injection Hu as ->. reflexivity.
    + fold (drop2 N s j d v) in Hs. sc Hs; (eapply G; [try apply pcs_emit; apply drop2_pcs|intros ? [?|?]; discriminate]).
    + sc Hs. eapply G; [apply (pcs_set_pc s j)|intros ? [?|?]; discriminate].
    + sc Hs. eapply G; [apply (pcs_set_pc s j)|intros ? [?|?]; discriminate].
    + sc Hs. eapply G; [apply pcs_emit, wake_pcs|intros ? [?|?]; discriminate].
    + sc Hs. eapply G; [apply wake_pcs|intros ? [?|?]; discriminate].
  - sc Hs; (eapply G; [try apply pcs_emit; apply (pcs_set_pc s j)|intros ? [?|?]; discriminate]).
  - sc Hs. eapply G; [apply (pcs_set_pc s j)|]. intros u. destruct (pred (nsend s) =? 0); intros [?|?]; discriminate.
  - sc Hs. apply F; auto.
  - sc Hs; apply F; auto.
  - destruct (recv s) as [| |w|w|w x|w x v|w|w| |x| |] eqn:Er; try discriminate; try (sc Hs; apply F; auto; fail).
    + sc Hs. apply F. intros k. simpl. destruct (reg_same s w) as (_ & -> & _). reflexivity.
    + sc Hs. apply F. intros k. apply (return_pc N s x k).
    + sc Hs; apply F; auto. intros k. simpl. unfold upd. destruct (Nat.eqb_spec k n) as [->|]; reflexivity.
  - sc Hs. apply F; auto.
  - sc Hs. apply F; auto.
Qed.

Lemma InvE_reach s : creach N s -> InvE s.
Proof.
  intros H. assert (X : InvL s /\ InvE s); [|tauto]. revert s H. apply reach_inv.
  - split; [apply InvL_new|]. intros j v. simpl. intros [?|?]; discriminate.
  - intros s l s' [HL HO] Hs. split; [eapply InvL_step; eauto|eapply InvE_step; eauto].
Qed.

(** * C25: a slot acquired while somebody waits goes to the longest-waiting sender *)
Lemma return_held (s : chan) x k : InvL s ->
  hheld (hs (return_slot N s x) k) = hheld (hs s k) \/
  (exists q, wq s = k :: q /\ h_woken (hs (return_slot N s x) k) = true).
Proof.
  intros HL. unfold return_slot. destruct (wq s) as [|j q] eqn:Eq; [now left|].
  simpl. unfold upd. destruct (Nat.eqb_spec k j) as [->|]; [right; eauto|now left].
Qed.

Lemma acquire_fifo s l s' k x j : creach N s -> step s l = Some s' ->
  hheld (hs s k) = None -> hheld (hs s' k) = Some x -> In j (wq s) ->
  In k (wq s) /\ h_seq (hs s k) <= h_seq (hs s j) /\ h_woken (hs s' k) = true.
Proof.
  intros Hr Hs Hn Hx Hj. pose proof (InvX_reach Hr) as [[HL HO HN Hb] _ _ _ HS].
  assert (Hf : freeq s = []) by (apply (L_free HL); intros E; rewrite E in Hj; destruct Hj).
  assert (Fin : forall q, wq s = k :: q -> In k (wq s) /\ h_seq (hs s k) <= h_seq (hs s j)).
  { intros q Eq. split; [rewrite Eq; now left|]. destruct HS as [_ H2 _]. rewrite Eq in *.
    destruct Hj as [->|Hj]; [lia|]. inversion H2 as [|? ? ? Hfa]; subst. rewrite Forall_forall in Hfa. specialize (Hfa j Hj). lia. }
  assert (Same : hheld (hs s' k) = hheld (hs s k) -> False) by congruence.
  assert (PC : forall i p, (forall k, hs s' k = if Nat.eqb k i then mkH p (h_link (hs s i)) (h_slot (hs s i)) (h_waker (hs s i)) (h_woken (hs s i)) (h_seq (hs s i)) else hs s k) ->
     hheld (mkH p (h_link (hs s i)) (h_slot (hs s i)) (h_waker (hs s i)) (h_woken (hs s i)) (h_seq (hs s i))) <> None -> hheld (hs s i) <> None \/ k <> i -> False).
  { intros i p Hp Hh Ho. apply Same. rewrite Hp. destruct (Nat.eqb_spec k i) as [->|]; [|reflexivity].
    destruct Ho as [Ho|Ho]; congruence. }
  destruct l as [|i i'|i v|i v|i w|i|i|i| |w| | |]; simpl in Hs.
  - destruct (recv s) eqn:Er; try discriminate. pose proof (L_new HL Er) as ->. destruct Hj.
  - sc Hs. exfalso. simpl in Hx. unfold upd in Hx. destruct (k =? i'); [discriminate|congruence].
  - sc Hs; exfalso; simpl in Hx; [unfold upd in Hx|congruence]. destruct (Nat.eqb_spec k i) as [->|]; [|congruence].
    unfold hheld in *. rewrite E in Hn. simpl in Hx. congruence.
  - sc Hs; exfalso; simpl in Hx. unfold upd in Hx. destruct (Nat.eqb_spec k i) as [->|]; [|congruence].
    unfold hheld in *. rewrite E in Hn. simpl in Hx. congruence.
  - exfalso. assert (X : forall v, s' = send_poll s i w v -> hheld (hs s i) = h_slot (hs s i) -> False).
    { intros v -> Hh. destruct (Nat.eq_dec k i) as [->|Hne]; [|rewrite poll_pc_other in Hx by auto; congruence].
      unfold send_poll in Hx. destruct (rdropped s).
      { simpl in Hx. rewrite upd_same in Hx. unfold hheld in Hx; simpl in Hx. congruence. }
      destruct (h_link (hs s i)).
      - rewrite Hf in Hx. destruct (wq s); simpl in Hx; rewrite upd_same in Hx; unfold hheld in Hx; simpl in Hx; congruence.
      - simpl in Hx. rewrite upd_same in Hx. unfold hheld in Hx; simpl in Hx. congruence.
      - simpl in Hx. rewrite upd_same in Hx. rewrite Hh in Hn. rewrite Hn in Hx. unfold hheld in Hx; simpl in Hx. congruence. }
    destruct (h_pc (hs s i)) eqn:E; try discriminate; injection Hs as Hs; symmetry in Hs; (eapply X; [eauto|]); unfold hheld; now rewrite E.
  - pose proof (L_h HL i) as Hk. unfold hok in Hk.
    destruct (wake_same s) as (_ & Ew & _).
    destruct (h_pc (hs s i)) as [| |v|v|v|v|d v|d v|y v|y v|v| |] eqn:E; try discriminate.
    + exfalso. sc Hs; simpl in Hx; unfold upd in Hx; (destruct (Nat.eqb_spec k i) as [->|]; [|congruence]);
        unfold hheld in *; rewrite E in Hn; simpl in Hx; congruence.
    + exfalso. rewrite Hf in Hs. sc Hs; simpl in Hx; unfold upd in Hx; (destruct (Nat.eqb_spec k i) as [->|]; [|congruence]);
        unfold hheld in *; rewrite E in Hn; simpl in Hx; congruence.
    + exfalso. sc Hs; simpl in Hx; unfold upd in Hx; (destruct (Nat.eqb_spec k i) as [->|]; [|congruence]).
      unfold hheld in *; rewrite E in Hn; simpl in Hx. destruct d; congruence.
    + (* dropper returns a slot *)
      assert (Hlk : h_link (hs s i) = LNone) by (destruct d; [apply Hk|exact Hk|exact Hk]).
      fold (drop2 N s i d v) in Hs.
      assert (X : forall p, hs s' = hs (set_pc (drop2 N s i d v) i p) -> p = HIdle \/ (exists y, p = FWrite y v /\ d = DOk y) ->
                  In k (wq s) /\ h_seq (hs s k) <= h_seq (hs s j) /\ h_woken (hs s' k) = true).
      { intros p Hp Hq. rewrite Hp in Hx |- *. simpl in *. unfold upd in *. destruct (Nat.eqb_spec k i) as [->|Hne].
        - exfalso. unfold hheld in Hx, Hn; simpl in Hx. rewrite E in Hn.
          assert (Hz : h_slot (hs (drop2 N s i d v) i) = None).
          { unfold drop2. destruct (h_slot (hs s i)).
            - rewrite return_other; [simpl; now rewrite upd_same|]. simpl. rewrite (L_in HL). congruence.
            - simpl. now rewrite upd_same. }
          destruct Hq as [->|(z & -> & ->)]; congruence.
        - unfold drop2 in *. destruct (h_slot (hs s i)) as [z|].
          + unfold return_slot in *. simpl in *. destruct (wq s) as [|k' q] eqn:Eq; simpl in *.
            * rewrite upd_other in Hx by auto. congruence.
            * unfold upd in *. destruct (Nat.eqb_spec k k') as [->|Hne']; simpl.
              -- destruct (Fin q eq_refl) as [F1 F2]. auto.
              -- destruct (Nat.eqb_spec k i); congruence.
          + simpl in Hx. rewrite upd_other in Hx by auto. congruence. }
      sc Hs; (eapply X; [reflexivity|eauto]).
    + exfalso. sc Hs; simpl in Hx; unfold upd in Hx; (destruct (Nat.eqb_spec k i) as [->|]; [|congruence]);
        unfold hheld in *; rewrite E in Hn; simpl in Hx; congruence.
    + exfalso. sc Hs; simpl in Hx; unfold upd in Hx; (destruct (Nat.eqb_spec k i) as [->|]; [|congruence]);
        unfold hheld in *; rewrite E in Hn; simpl in Hx; congruence.
    + exfalso. sc Hs; simpl in Hx; rewrite Ew in Hx; unfold upd in Hx; (destruct (Nat.eqb_spec k i) as [->|]; [|congruence]);
        unfold hheld in *; rewrite E in Hn; simpl in Hx; congruence.
    + exfalso. sc Hs; simpl in Hx; rewrite Ew in Hx; unfold upd in Hx; (destruct (Nat.eqb_spec k i) as [->|]; [|congruence]);
        unfold hheld in *; rewrite E in Hn; simpl in Hx; congruence.
  - exfalso. sc Hs; simpl in Hx; unfold upd in Hx; (destruct (Nat.eqb_spec k i) as [->|]; [|congruence]);
      unfold hheld in *; rewrite E in Hn; simpl in Hx; congruence.
  - exfalso. sc Hs; simpl in Hx; unfold upd in Hx; (destruct (Nat.eqb_spec k i) as [->|]; [|congruence]);
      unfold hheld in *; rewrite E in Hn; simpl in Hx. destruct (pred (nsend s) =? 0); congruence.
  - exfalso. sc Hs. simpl in Hx. congruence.
  - exfalso. sc Hs; simpl in Hx; congruence.
  - destruct (recv s) as [| |w|w|w y|w y v|w|w| |y| |] eqn:Er; try discriminate; try (exfalso; sc Hs; simpl in Hx; congruence).
    + exfalso. sc Hs. simpl in Hx. destruct (reg_same s w) as (_ & E & _). rewrite E in Hx. congruence.
    + sc Hs. simpl in *. destruct (return_held y k HL) as [X|(q & Eq & Hw)]; [congruence|]. destruct (Fin q Eq). auto.
    + exfalso. sc Hs; simpl in Hx; [congruence|]. unfold upd in Hx. destruct (Nat.eqb_spec k n) as [->|]; [|congruence].
      unfold hheld in *. simpl in Hx. congruence.
  - exfalso. sc Hs. simpl in Hx. congruence.
  - exfalso. sc Hs. simpl in Hx. congruence.
Qed.

(** * C29: after the receiver is gone *)
Lemma late_step s l s' j : InvL s -> rdropped s = true -> uncommitted (h_pc (hs s j)) = true -> step s l = Some s' ->
  uncommitted (h_pc (hs s' j)) = true.
Proof.
  intros HL Hd Hu Hs.
  assert (F : (forall k, h_pc (hs s' k) = h_pc (hs s k)) -> uncommitted (h_pc (hs s' j)) = true) by (intros ->; exact Hu).
  assert (G : forall i p, pcs_upd s s' i p -> (i = j -> uncommitted p = true) -> uncommitted (h_pc (hs s' j)) = true).
  { intros i p Hp Hq. rewrite Hp. destruct (Nat.eqb_spec j i) as [->|]; auto. }
  destruct l as [|i k|i v|i v|i w|i|i|i| |w| | |]; simpl in Hs.
  - destruct (recv s) eqn:Er; try discriminate. pose proof (L_new HL Er) as ->. discriminate.
  - sc Hs. apply (G k HIdle); [|auto]. intros x. simpl. unfold upd. destruct (x =? k); reflexivity.
  - sc Hs; [|apply F; auto]. apply (G i (TClosed v)); [apply pcs_pre|auto].
  - sc Hs. apply (G i (SNew v)); [apply pcs_pre|auto].
  - assert (X : forall v, s' = send_poll s i w v -> uncommitted (h_pc (hs s' j)) = true).
    { intros v ->. unfold send_poll in *. rewrite Hd in *. eapply G; [apply pcs_set_pc|reflexivity]. }
    destruct (h_pc (hs s i)) eqn:E; try discriminate; injection Hs as Hs; symmetry in Hs; eapply X; eauto.
  - destruct (h_pc (hs s i)) as [| |v|v|v|v|d v|d v|x v|x v|v| |] eqn:E; try discriminate.
    + rewrite Hd in Hs. sc Hs. eapply G; [apply pcs_emit; apply (pcs_set_pc s i)|reflexivity].
    + sc Hs; (eapply G; [try apply pcs_emit; apply (pcs_set_pc s i)|]; intros ->; rewrite E in Hu; discriminate).
    + sc Hs. eapply G; [apply (pcs_set_h s i)|]. simpl. intros ->. rewrite E in Hu. destruct d; auto.
    + fold (drop2 N s i d v) in Hs. sc Hs; (eapply G; [try apply pcs_emit; apply drop2_pcs|]); auto.
      intros ->. rewrite E in Hu. discriminate.
    + sc Hs. eapply G; [apply (pcs_set_pc s i)|]. intros ->. rewrite E in Hu. discriminate.
    + sc Hs. eapply G; [apply (pcs_set_pc s i)|]. intros ->. rewrite E in Hu. discriminate.
    + sc Hs. eapply G; [apply pcs_emit, wake_pcs|reflexivity].
    + sc Hs. eapply G; [apply wake_pcs|reflexivity].
  - sc Hs; (eapply G; [try apply pcs_emit; apply (pcs_set_pc s i)|reflexivity]).
  - sc Hs. eapply G; [apply (pcs_set_pc s i)|]. intros _. destruct (pred (nsend s) =? 0); reflexivity.
  - sc Hs. apply F; auto.
  - sc Hs; apply F; auto.
  - destruct (recv s) as [| |w|w|w x|w x v|w|w| |x| |] eqn:Er; try discriminate; try (sc Hs; apply F; auto; fail).
    + sc Hs. apply F. intros k. simpl. destruct (reg_same s w) as (_ & -> & _). reflexivity.
    + sc Hs. apply F. intros k. apply (return_pc N s x k).
    + sc Hs; apply F; auto. intros k. simpl. unfold upd. destruct (Nat.eqb_spec k n) as [->|]; reflexivity.
  - sc Hs. apply F; auto.
  - sc Hs. apply F; auto.
Qed.

Lemma late_run ls : forall s s' j, creach N s -> rdropped s = true -> uncommitted (h_pc (hs s j)) = true ->
  run step s ls = Some s' -> filter (fun c => Nat.eqb (fst c) j) (commits (log s')) = filter (fun c => Nat.eqb (fst c) j) (commits (log s)).
Proof.
  induction ls as [|l ls IH]; simpl; intros s s' j Hr Hd Hu Hs; [now injection Hs as <-|].
  destruct (step s l) as [s1|] eqn:E; [|discriminate].
  pose proof (InvAll_reach Hr) as [HL _ _ _].
  assert (Hr1 : creach N s1) by (eapply reach_step; eauto).
  assert (Hd1 : rdropped s1 = true) by (eapply rdropped_mono; eauto).
  assert (Hu1 : uncommitted (h_pc (hs s1 j)) = true) by (eapply late_step; eauto).
  rewrite (IH s1 s' j Hr1 Hd1 Hu1 Hs).
  destruct (step_events l HL E) as (evs & El & He). rewrite El, commits_app, filter_app.
  enough (X : filter (fun c => fst c =? j) (commits evs) = []) by (rewrite X; apply app_nil_r).
  clear El IH Hs. induction evs as [|e evs IHe]; simpl; [reflexivity|].
  assert (IHe' : filter (fun c => fst c =? j) (commits evs) = []) by (apply IHe; intros; apply He; now right).
  pose proof (He e (or_introl eq_refl)) as Hm. destruct e; simpl in *; auto.
  destruct (Nat.eqb_spec j0 j) as [->|]; [|auto]. destruct Hm as (x & Hm). rewrite Hm in Hu. discriminate.
Qed.

Definition InvW (s : chan) : Prop := recv s = RDead -> wq s = [].
Lemma InvW_step s l s' : InvL s -> InvW s -> step s l = Some s' -> InvW s'.
Proof.
  intros HL HW Hs Hd.
  assert (F : recv s = RDead -> (wq s = [] -> wq s' = []) -> wq s' = []) by (intros; auto).
  destruct l as [|j k|j v|j v|j w|j|j|j| |w| | |]; simpl in Hs; try (sc Hs; simpl in *; try discriminate; auto; fail).
  - assert (X : forall v, s' = send_poll s j w v -> wq s' = []).
    { intros v ->. destruct (poll_same s j w v) as (_ & _ & _ & E & _). rewrite E in Hd.
      assert (Hdr : rdropped s = true) by (rewrite (L_drop HL), Hd; reflexivity).
      unfold send_poll. rewrite Hdr. simpl. auto. }
    destruct (h_pc (hs s j)) eqn:E; try discriminate; injection Hs as Hs; symmetry in Hs; eapply X; eauto.
  - destruct (wake_same s) as (Ew1 & _ & _ & _ & _ & _ & Ew & _).
    destruct (h_pc (hs s j)) as [| |v|v|v|v|d v|d v|x v|x v|v| |] eqn:E; try discriminate; try (sc Hs; simpl in *; auto; fail).
    + sc Hs. simpl in *. rewrite HW by auto. reflexivity.
    + fold (drop2 N s j d v) in Hs. destruct (drop2_same N s j d v) as (_ & _ & _ & E4 & _).
      assert (X : recv s = RDead -> wq (drop2 N s j d v) = []).
      { intros Hx. specialize (HW Hx). unfold drop2. destruct (h_slot (hs s j)); simpl; [|auto].
        unfold return_slot; simpl. rewrite HW. simpl. auto. }
      sc Hs; simpl in *; rewrite E4 in Hd; auto.
    + sc Hs. simpl in *. rewrite Ew1. auto. rewrite Ew in Hd. auto.
    + sc Hs. simpl in *. rewrite Ew1. auto. rewrite Ew in Hd. auto.
  - destruct (recv s) as [| |w|w|w x|w x v|w|w| |x| |] eqn:Er; try discriminate; try (sc Hs; simpl in *; congruence).
    all: sc Hs; simpl in *; auto; discriminate.
Qed.

Lemma InvW_reach s : creach N s -> InvW s.
Proof.
  intros H. assert (X : InvL s /\ InvW s); [|tauto]. revert s H. apply reach_inv.
  - split; [apply InvL_new|]. intros E. reflexivity.
  - intros s l s' [HL HO] Hs. split; [eapply InvL_step; eauto|eapply InvW_step; eauto].
Qed.

(** * Conservation of values, including the ones dropped by the receiver *)
Definition held_val (s : chan) : list (option V) :=
  match recv s with RRead _ x | RDrop x => [slots s x] | RRet _ _ v => [Some v] | _ => [] end.
Definition InvD (s : chan) : Prop :=
  Permutation (map Some (map snd (commits (log s))))
    (map Some (recvs (log s)) ++ map Some (drops (log s)) ++ held_val s ++ map (slots s) (readyq s)).

Lemma drops_app (a b : list event) : drops (a ++ b) = drops a ++ drops b.
Proof. induction a as [|e a IH]; simpl; [auto|]. destruct e; simpl; rewrite ?IH; auto. Qed.
Lemma drops_wake k : drops (map (@EWakeR V) k) = [].
Proof. induction k; auto. Qed.

Lemma InvD_frame (s s' : chan) evs :
  InvD s -> log s' = log s ++ evs -> commits evs = [] -> recvs evs = [] -> drops evs = [] ->
  Permutation (held_val s ++ map (slots s) (readyq s)) (held_val s' ++ map (slots s') (readyq s')) -> InvD s'.
Proof.
  intros H El E1 E2 E3 E4. unfold InvD in *. rewrite El, commits_app, recvs_app, drops_app, E1, E2, E3, !app_nil_r.
  rewrite H. now rewrite E4.
Qed.

Ltac plain := let e := fresh in let H := fresh in intros e H; simpl in H; repeat (destruct H as [H|H]; [subst e; reflexivity|]); destruct H.

Lemma InvD_step s l s' : InvL s -> InvO N s -> InvD s -> step s l = Some s' -> InvD s'.
Proof.
  intros HL HO HT Hs.
  assert (F0 : log s' = log s -> held_val s' = held_val s -> slots s' = slots s -> readyq s' = readyq s -> InvD s').
  { intros E1 E2 E3 E4. apply InvD_frame with (s := s) (evs := []); auto; [now rewrite app_nil_r|]. now rewrite E2, E3, E4. }
  assert (F1 : forall evs, log s' = log s ++ evs -> commits evs = [] -> recvs evs = [] -> drops evs = [] ->
               recv s' = recv s -> slots s' = slots s -> readyq s' = readyq s -> InvD s').
  { intros evs E1 Ea Eb Ec E2 E3 E4. apply InvD_frame with (s := s) (evs := evs); auto. unfold held_val. now rewrite E2, E3, E4. }
  destruct l as [|j k|j v|j v|j w|j|j|j| |w| | |]; simpl in Hs.
  - destruct (recv s) eqn:Er; try discriminate. injection Hs as <-. pose proof (L_new HL Er) as ->. unfold InvD; simpl. constructor.
  - sc Hs. apply F0; auto.
  - sc Hs; eapply F1; try reflexivity. simpl. rewrite <- app_assoc. reflexivity. all: reflexivity.
  - sc Hs. eapply F1; reflexivity.
  - assert (X : forall v, s' = send_poll s j w v -> InvD s').
    { intros v ->. destruct (poll_same s j w v) as (E1 & E2 & _ & E3 & _ & _ & _ & E4 & E5).
      apply F0; auto. unfold held_val. now rewrite E2, E3. }
    destruct (h_pc (hs s j)) eqn:E; try discriminate; injection Hs as Hs; symmetry in Hs; eapply X; eauto.
  - destruct (wake_same s) as (_ & _ & _ & Ew1 & Ew2 & Ew3 & Ew4 & _).
    destruct (wake_log s) as (kk & Ewl).
    destruct (h_pc (hs s j)) as [| |v|v|v|v|d v|d v|x v|x v|v| |] eqn:E; try discriminate.
    + sc Hs; [eapply F1; reflexivity|apply F0; auto].
    + sc Hs; [eapply F1; reflexivity|apply F0; auto].
    + sc Hs. apply F0; auto.
    + fold (drop2 N s j d v) in Hs. destruct (drop2_same N s j d v) as (E1 & E2 & _ & E3 & _ & _ & E4 & _).
      assert (El : exists evs, log (drop2 N s j d v) = log s ++ evs /\ commits evs = [] /\ recvs evs = [] /\ drops evs = []).
      { unfold drop2. destruct (h_slot (hs s j)); [rewrite return_log; simpl; destruct (wq s); eexists; (split; [reflexivity|]); auto|].
        exists []. rewrite app_nil_r. auto. }
      destruct El as (evs & El & Ec & Er & Ed).
      sc Hs.
      * apply (F1 evs); simpl; auto.
      * apply (F1 (evs ++ [ENoRecv j v])); simpl; auto; rewrite ?commits_app, ?recvs_app, ?drops_app, ?Ec, ?Er, ?Ed; auto.
        now rewrite El, app_assoc.
      * apply (F1 (evs ++ [ECancel j v])); simpl; auto; rewrite ?commits_app, ?recvs_app, ?drops_app, ?Ec, ?Er, ?Ed; auto.
        now rewrite El, app_assoc.
    + sc Hs. apply InvD_frame with (s := s) (evs := []); simpl; auto; [now rewrite app_nil_r|].
      destruct HO as [(wh & H1 & H2 & H3) H4 H5 H6 H7].
      assert (Hw : wh x = PH j) by (apply (O_h H1); unfold hheld; now rewrite E).
      replace (held_val _ ++ map (upd (slots s) x (Some v)) (readyq s)) with (held_val s ++ map (slots s) (readyq s)); [auto|].
      f_equal.
      * unfold held_val; simpl. destruct (recv s) eqn:Er; auto; rewrite upd_other; auto;
          (intros ->; assert (wh x = PR) by (apply (O_v H1); reflexivity); congruence).
      * apply map_ext_in. intros y Hy. symmetry. apply upd_other. intros ->. apply (O_r H1) in Hy. congruence.
    + sc Hs. unfold InvD in *; simpl. rewrite commits_app, recvs_app, drops_app; simpl. rewrite !app_nil_r, !map_app. simpl.
      assert (Hx : slots s x = Some v).
      { rewrite (IO_h HO j (x := x)); unfold hheld, hcont; now rewrite E. }
      rewrite Hx. rewrite HT, <- !app_assoc. reflexivity.
    + sc Hs. apply (F1 (map EWakeR kk ++ [ESent j v])); simpl; auto; rewrite ?commits_app, ?recvs_app, ?drops_app, ?commits_wake, ?recvs_wake, ?drops_wake; auto.
      now rewrite Ewl, app_assoc.
    + sc Hs. apply (F1 (map EWakeR kk)); simpl; auto using commits_wake, recvs_wake, drops_wake.
  - sc Hs; [eapply F1; reflexivity|apply F0; auto].
  - sc Hs. apply F0; auto.
  - sc Hs. apply F0; auto. unfold held_val. now rewrite E.
  - sc Hs; (apply F0; auto; unfold held_val; now rewrite E).
  - pose proof (IO_recv HO) as Hrc.
    destruct (recv s) as [| |w|w|w x|w x v|w|w| |x| |] eqn:Er; try discriminate.
    + sc Hs. destruct (reg_log s w) as [kk El]. destruct (reg_same s w) as (_ & _ & _ & E1 & E2 & E3 & _).
      apply InvD_frame with (s := s) (evs := map EWakeR kk); simpl; auto using commits_wake, recvs_wake, drops_wake.
      unfold held_val; simpl. now rewrite E1, E2, Er.
    + sc Hs; (apply InvD_frame with (s := s) (evs := []); simpl; auto; [now rewrite app_nil_r|]); unfold held_val; simpl; rewrite Er, E; simpl; auto.
    + sc Hs; [|exfalso; now apply (Hrc x)].
      apply InvD_frame with (s := s) (evs := []); simpl; auto; [now rewrite app_nil_r|].
      destruct HO as [(wh & H1 & _) _ _ _ _]. rewrite Er in H1.
      assert (Hw : wh x = PR) by (now apply (O_v H1)).
      unfold held_val; simpl. rewrite Er, E. simpl.
      replace (map (upd (slots s) x None) (readyq s)) with (map (slots s) (readyq s)); [auto|].
      apply map_ext_in. intros y Hy. symmetry. apply upd_other. intros ->. apply (O_r H1) in Hy. congruence.
    + sc Hs. destruct (return_same N s x) as (E1 & E2 & _ & _ & _ & _ & E4 & _). unfold InvD in *. simpl.
      rewrite return_log, !commits_app, !recvs_app, !drops_app.
      replace (commits match wq s with [] => [] | j :: _ => [EHand j x] end) with (@nil (nat * V)) by (destruct (wq s); auto).
      replace (recvs match wq s with [] => [] | j :: _ => [EHand j x] end) with (@nil V) by (destruct (wq s); auto).
      replace (drops match wq s with [] => [] | j :: _ => [EHand j x] end) with (@nil V) by (destruct (wq s); auto).
      simpl. rewrite !app_nil_r, E1, E2, HT. unfold held_val. simpl. rewrite Er, map_app. simpl.
      rewrite <- app_assoc. apply Permutation_app_head. simpl. symmetry. apply Permutation_middle.
    + sc Hs.
      * apply InvD_frame with (s := s) (evs := [ENoSender]); simpl; auto. unfold held_val; simpl. rewrite Er. auto.
      * apply F0; auto. unfold held_val. now rewrite Er.
      * apply InvD_frame with (s := s) (evs := [EEmpty]); simpl; auto. unfold held_val; simpl. rewrite Er. auto.
    + sc Hs.
      * apply F0; auto. unfold held_val. now rewrite Er.
      * apply InvD_frame with (s := s) (evs := []); simpl; auto; [now rewrite app_nil_r|]. unfold held_val; simpl. rewrite Er. simpl.
        assert (Hrq : readyq s = rev l ++ [n]) by (rewrite <- (rev_involutive (readyq s)), E; reflexivity).
        rewrite Hrq, removelast_last, map_app. simpl. symmetry. apply Permutation_cons_append.
    + sc Hs; [|exfalso; now apply (Hrc x)].
      destruct HO as [(wh & H1 & _) _ _ _ _]. rewrite Er in H1.
      assert (Hw : wh x = PR) by (now apply (O_v H1)).
      unfold InvD in *. simpl. rewrite commits_app, recvs_app, drops_app. simpl. rewrite !app_nil_r, HT. unfold held_val; simpl.
      rewrite Er, map_app, E. simpl. apply Permutation_app_head. rewrite <- app_assoc. apply Permutation_app_head. simpl.
      apply Permutation_cons; [reflexivity|].
      replace (map (upd (slots s) x None) (readyq s)) with (map (slots s) (readyq s)); [auto|].
      apply map_ext_in. intros y Hy. symmetry. apply upd_other. intros ->. apply (O_r H1) in Hy. congruence.
    + sc Hs.
      * apply F0; auto. unfold held_val. now rewrite Er.
      * apply InvD_frame with (s := s) (evs := [EWakeS n]); simpl; auto.
  - sc Hs. apply F0; auto. unfold held_val. now rewrite E.
  - sc Hs. apply F0; auto. unfold held_val. now rewrite E.
Qed.

Lemma InvD_reach s : creach N s -> InvD s.
Proof.
  intros H. assert (X : InvAll N s /\ InvD s); [|tauto]. revert s H. apply reach_inv.
  - split; [apply InvAll_reach; apply reach_refl|]. unfold InvD; simpl. constructor.
  - intros s l s' [[HL HO HN Hb] HD] Hs. split; [|eapply InvD_step; eauto]. constructor.
    + eapply InvL_step; eauto.
    + eapply InvO_step; eauto.
    + eapply InvN_step; eauto.
    + eapply bug_step; eauto.
Qed.
End M.
