(** Trace invariants of the channel model: delivery order, per-operation outcomes, receiver wake-up,
    order of waiting senders. *)
From Verif Require Import Base LTS WakerRegModel ChannelModel ChannelSpec ChannelInv ChannelOwn ChannelProofs.
From Coq Require Import Sorting.Sorted.
Set Implicit Arguments.

Section T.
Context {V : Type} (N : nat).
Notation chan := (chan V).
Notation step := (@step V N).
Notation hst := (hst V).
Notation event := (event V).

Lemma commits_app (a b : list event) : commits (a ++ b) = commits a ++ commits b.
Proof. induction a as [|e a IH]; simpl; [auto|]. destruct e; simpl; rewrite ?IH; auto. Qed.
Lemma recvs_app (a b : list event) : recvs (a ++ b) = recvs a ++ recvs b.
Proof. induction a as [|e a IH]; simpl; [auto|]. destruct e; simpl; rewrite ?IH; auto. Qed.
Lemma commits_wake k : commits (map (@EWakeR V) k) = [].
Proof. induction k; auto. Qed.
Lemma recvs_wake k : recvs (map (@EWakeR V) k) = [].
Proof. induction k; auto. Qed.

(** * Delivery *)
Definition infl (s : chan) : list (option V) :=
  match recv s with RRead _ x => [slots s x] | RRet _ _ v => [Some v] | _ => [] end.

Record InvT (s : chan) : Prop := {
  T_eq : rdropped s = false ->
         map Some (map snd (commits (log s))) = map Some (recvs (log s)) ++ infl s ++ map (slots s) (readyq s);
  T_pre : exists rest, map snd (commits (log s)) = recvs (log s) ++ rest
}.

Lemma some_prefix (a b : list V) c : map Some a = map Some b ++ c -> exists rest, a = b ++ rest.
Proof.
  revert a. induction b as [|x b IH]; intros a; simpl; [eauto|].
  destruct a as [|y a]; simpl; [discriminate|]. intros [= -> H]. destruct (IH _ H) as [r ->]. now exists r.
Qed.

Lemma InvT_frame (s s' : chan) evs :
  InvT s -> log s' = log s ++ evs -> commits evs = [] -> recvs evs = [] ->
  (rdropped s = true -> rdropped s' = true) ->
  (rdropped s' = false -> infl s' ++ map (slots s') (readyq s') = infl s ++ map (slots s) (readyq s)) -> InvT s'.
Proof.
  intros [H1 H2] El E1 E2 Ed E3. constructor; rewrite El, commits_app, recvs_app, E1, E2, !app_nil_r.
  - intros Hd. rewrite E3 by auto. apply H1. destruct (rdropped s); [|auto]. now rewrite Ed in Hd.
  - exact H2.
Qed.

Lemma wake_log (s : chan) : exists k, log (wake_receiver s) = log s ++ map (@EWakeR V) k.
Proof. unfold wake_receiver. destruct (wreg_wake (rwaker s)) as [r k]. now exists k. Qed.
Lemma reg_log (s : chan) w : exists k, log (register_receiver s w) = log s ++ map (@EWakeR V) k.
Proof. unfold register_receiver. destruct (wreg_register (rwaker s) w) as [r k]. now exists k. Qed.

Lemma InvT_step s l s' : InvL s -> InvO N s -> InvT s -> step s l = Some s' -> InvT s'.
Proof.
  intros HL HO HT Hs. destruct l as [|j k|j v|j v|j w|j|j|j| |w| | |]; simpl in Hs.
  - destruct (recv s) eqn:Er; try discriminate. injection Hs as <-. pose proof (L_new HL Er) as ->.
    constructor; simpl; [reflexivity|now exists []].
  - sc Hs. apply InvT_frame with (s := s) (evs := []); auto. now rewrite app_nil_r.
  - sc Hs.
    + eapply InvT_frame with (s := s); [auto|reflexivity| | | |]; auto.
    + eapply InvT_frame with (s := s); [auto|simpl; rewrite <- app_assoc; reflexivity| | | |]; auto.
  - sc Hs. eapply InvT_frame with (s := s); [auto|reflexivity| | | |]; auto.
  - assert (X : forall v, InvT (send_poll s j w v)).
    { intros v. destruct (poll_same s j w v) as (E1 & E2 & _ & E3 & _ & _ & _ & E4 & E5).
      apply InvT_frame with (s := s) (evs := []); auto; rewrite ?E4, ?E5, ?app_nil_r; auto.
      intros _. unfold infl. now rewrite E1, E2, E3. }
    sc Hs; apply X.
  - pose proof (L_h HL j) as Hk. unfold hok in Hk.
    destruct (wake_same s) as (_ & _ & _ & Ew1 & Ew2 & Ew3 & Ew4 & _).
    destruct (wake_log s) as (kk & Ewl).
    destruct (h_pc (hs s j)) as [| |v|v|v|v|d v|d v|x v|x v|v| |] eqn:E; try discriminate.
    + sc Hs; [eapply InvT_frame with (s := s); [auto|reflexivity| | | |]; auto|].
      apply InvT_frame with (s := s) (evs := []); auto. now rewrite app_nil_r.
    + sc Hs; [eapply InvT_frame with (s := s); [auto|reflexivity| | | |]; auto|].
      apply InvT_frame with (s := s) (evs := []); auto. now rewrite app_nil_r.
    + sc Hs. apply InvT_frame with (s := s) (evs := []); auto. now rewrite app_nil_r.
    + fold (drop2 N s j d v) in Hs. destruct (drop2_same N s j d v) as (E1 & E2 & _ & E3 & _ & _ & E4 & _).
      assert (El : exists evs, log (drop2 N s j d v) = log s ++ evs /\ commits evs = [] /\ recvs evs = []).
      { unfold drop2. destruct (h_slot (hs s j)); [rewrite return_log; simpl; destruct (wq s); eauto|].
        exists []. now rewrite app_nil_r. }
      destruct El as (evs & El & Ec & Er).
      sc Hs.
      * apply InvT_frame with (s := s) (evs := evs); simpl; auto; [congruence|].
        intros _. unfold infl; simpl. now rewrite E1, E2, E3.
      * apply InvT_frame with (s := s) (evs := evs ++ [ENoRecv j v]); simpl; auto.
        -- rewrite El, app_assoc. reflexivity.
        -- now rewrite commits_app, Ec.
        -- now rewrite recvs_app, Er.
        -- congruence.
        -- intros _. unfold infl; simpl. now rewrite E1, E2, E3.
      * apply InvT_frame with (s := s) (evs := evs ++ [ECancel j v]); simpl; auto.
        -- rewrite El, app_assoc. reflexivity.
        -- now rewrite commits_app, Ec.
        -- now rewrite recvs_app, Er.
        -- congruence.
        -- intros _. unfold infl; simpl. now rewrite E1, E2, E3.
    + sc Hs. apply InvT_frame with (s := s) (evs := []); simpl; auto; [now rewrite app_nil_r|].
      intros _. destruct HO as [(wh & H1 & H2 & H3) H4 H5 H6 H7].
      assert (Hw : wh x = PH j) by (apply (O_h H1); unfold hheld; now rewrite E).
      f_equal.
      * unfold infl; simpl. destruct (recv s) eqn:Er; auto. rewrite upd_other; [reflexivity|].
        intros ->. assert (wh x = PR) by (apply (O_v H1); reflexivity). congruence.
      * apply map_ext_in. intros y Hy. apply upd_other. intros ->. apply (O_r H1) in Hy. congruence.
    + sc Hs. destruct HT as [T1 [rest T2]]. constructor; simpl; rewrite commits_app, recvs_app; simpl; rewrite app_nil_r, map_app; simpl.
      * intros Hd. rewrite map_app, T1 by auto. simpl. rewrite map_app; simpl.
        assert (Hx : slots s x = Some v).
        { rewrite (IO_h HO j (x := x)); unfold hheld, hcont; now rewrite E. }
        rewrite Hx, <- !app_assoc. reflexivity.
      * exists (rest ++ [v]). rewrite T2, app_assoc. reflexivity.
    + sc Hs. apply InvT_frame with (s := s) (evs := map EWakeR kk ++ [ESent j v]); simpl; auto.
      * rewrite Ewl, app_assoc. reflexivity.
      * now rewrite commits_app, commits_wake.
      * now rewrite recvs_app, recvs_wake.
      * congruence.
      * intros _. unfold infl; simpl. now rewrite Ew1, Ew2, Ew4.
    + sc Hs. apply InvT_frame with (s := s) (evs := map EWakeR kk); simpl; auto using commits_wake, recvs_wake.
      * congruence.
      * intros _. unfold infl; simpl. now rewrite Ew1, Ew2, Ew4.
  - sc Hs; [eapply InvT_frame with (s := s); [auto|reflexivity| | | |]; auto|].
    apply InvT_frame with (s := s) (evs := []); auto. now rewrite app_nil_r.
  - sc Hs. apply InvT_frame with (s := s) (evs := []); auto. simpl. now rewrite app_nil_r.
  - sc Hs. apply InvT_frame with (s := s) (evs := []); simpl; auto; [now rewrite app_nil_r|].
    intros _. unfold infl; simpl. now rewrite E.
  - sc Hs; (apply InvT_frame with (s := s) (evs := []); simpl; auto; [now rewrite app_nil_r|];
    intros _; unfold infl; simpl; now rewrite E).
  - pose proof (IO_recv HO) as Hrc.
    destruct (recv s) as [| |w|w|w x|w x v|w|w| |x| |] eqn:Er; try discriminate.
    + sc Hs. destruct (reg_log s w) as [kk El]. destruct (reg_same s w) as (_ & _ & _ & E1 & E2 & E3 & _).
      apply InvT_frame with (s := s) (evs := map EWakeR kk); simpl; auto using commits_wake, recvs_wake; [congruence|].
      intros _. unfold infl; simpl. now rewrite E1, E2, Er.
    + sc Hs.
      * apply InvT_frame with (s := s) (evs := []); simpl; auto; [now rewrite app_nil_r|].
        intros _. unfold infl; simpl. now rewrite Er, E.
      * apply InvT_frame with (s := s) (evs := []); simpl; auto; [now rewrite app_nil_r|].
        intros _. unfold infl; simpl. now rewrite Er, E.
    + sc Hs; [|exfalso; now apply (Hrc x)].
      apply InvT_frame with (s := s) (evs := []); simpl; auto; [now rewrite app_nil_r|].
      intros _. destruct HO as [(wh & H1 & _) _ _ _ _]. rewrite Er in H1.
      assert (Hw : wh x = PR) by (now apply (O_v H1)).
      unfold infl; simpl. rewrite Er, E. simpl. f_equal.
      apply map_ext_in. intros y Hy. apply upd_other. intros ->. apply (O_r H1) in Hy. congruence.
    + sc Hs. destruct (return_same N s x) as (E1 & E2 & _ & _ & _ & _ & E4 & _).
      assert (Hd : rdropped s = false) by (rewrite (L_drop HL), Er; reflexivity).
      destruct HT as [T1 _]. specialize (T1 Hd).
      assert (Heq : map Some (map snd (commits (log s))) = map Some (recvs (log s) ++ [v]) ++ map (slots s) (readyq s)).
      { rewrite T1. unfold infl. rewrite Er, map_app, <- app_assoc. reflexivity. }
      assert (Ec : commits (log (return_slot N s x) ++ [ERecv v]) = commits (log s)).
      { rewrite return_log, !commits_app. destruct (wq s); simpl; now rewrite !app_nil_r. }
      assert (Ev : recvs (log (return_slot N s x) ++ [ERecv v]) = recvs (log s) ++ [v]).
      { rewrite return_log, !recvs_app. destruct (wq s); simpl; now rewrite !app_nil_r. }
      constructor; simpl; rewrite Ec, Ev.
      * intros _. unfold infl; simpl. rewrite E1, E2. exact Heq.
      * eapply some_prefix. exact Heq.
    + sc Hs.
      * eapply InvT_frame with (s := s); [auto|reflexivity| | | |]; auto. intros _. unfold infl; simpl. now rewrite Er.
      * apply InvT_frame with (s := s) (evs := []); simpl; auto; [now rewrite app_nil_r|]. intros _. unfold infl; simpl. now rewrite Er.
      * eapply InvT_frame with (s := s); [auto|reflexivity| | | |]; auto. intros _. unfold infl; simpl. now rewrite Er.
    + assert (Hd : rdropped s = true) by (rewrite (L_drop HL), Er; reflexivity).
      sc Hs; (apply InvT_frame with (s := s) (evs := []); simpl; auto; [now rewrite app_nil_r|congruence]).
    + assert (Hd : rdropped s = true) by (rewrite (L_drop HL), Er; reflexivity).
      sc Hs; [|exfalso; now apply (Hrc x)].
      eapply InvT_frame with (s := s); [auto|reflexivity| | | |]; auto. simpl. congruence.
    + assert (Hd : rdropped s = true) by (rewrite (L_drop HL), Er; reflexivity).
      sc Hs.
      * apply InvT_frame with (s := s) (evs := []); simpl; auto; [now rewrite app_nil_r|congruence].
      * eapply InvT_frame with (s := s); [auto|reflexivity| | | |]; auto.
  - sc Hs. apply InvT_frame with (s := s) (evs := []); simpl; auto; [now rewrite app_nil_r|].
    intros _. unfold infl; simpl. now rewrite E.
  - sc Hs. apply InvT_frame with (s := s) (evs := []); simpl; auto; [now rewrite app_nil_r|discriminate].
Qed.

(** * Outcome of every operation of a sender *)
Definition tailof (j : nat) (p : hpc V) : list event :=
  match p with
  | TClosed v | TPop v | SNew v | SWait v | SDrop1 _ v | SDrop2 _ v | FWrite _ v | FPush _ v => [EStart j v]
  | FWake v => [EStart j v; ECommit j v]
  | _ => []
  end.

Definition InvH (s : chan) : Prop :=
  forall j, exists l, ops j l /\ filter (about j) (log s) = l ++ tailof j (h_pc (hs s j)).

Lemma filter_silent (j : nat) (l : list event) : (forall e, In e l -> about j e = false) -> filter (about j) l = [].
Proof.
  induction l as [|e l IH]; simpl; intros H; [auto|]. rewrite H by auto. apply IH. auto.
Qed.

(** one step of handle [j]: pc becomes [p], events [evs] appended; only [j]'s events among them *)
Lemma InvH_pc (s s' : chan) j p evs :
  InvH s -> pcs_upd s s' j p -> log s' = log s ++ evs ->
  (forall k e, k <> j -> In e evs -> about k e = false) ->
  (forall l, ops j l -> exists l', ops j l' /\ (l ++ tailof j (h_pc (hs s j))) ++ filter (about j) evs = l' ++ tailof j p) ->
  InvH s'.
Proof.
  intros H Hp El Ho Hj k. destruct (H k) as (l & Hl & Hf). rewrite El, filter_app, Hp, Hf.
  destruct (Nat.eqb_spec k j) as [->|Hne].
  - apply Hj. exact Hl.
  - exists l. split; [exact Hl|]. rewrite (filter_silent k evs), app_nil_r; [reflexivity|]. intros e He. eapply Ho; eauto.
Qed.

Lemma InvH_frame (s s' : chan) evs :
  InvH s -> (forall k, h_pc (hs s' k) = h_pc (hs s k)) -> log s' = log s ++ evs ->
  (forall k e, In e evs -> about k e = false) -> InvH s'.
Proof.
  intros H Hp El Ho k. destruct (H k) as (l & Hl & Hf). rewrite El, filter_app, Hp, Hf.
  exists l. split; [exact Hl|]. rewrite (filter_silent k evs), app_nil_r; [reflexivity|]. intros e He. eapply Ho; eauto.
Qed.

Lemma about_wake k kk e : In e (map (@EWakeR V) kk) -> about k e = false.
Proof. rewrite in_map_iff. intros (x & <- & _). reflexivity. Qed.
Lemma filter_wake k kk : filter (about k) (map (@EWakeR V) kk) = [].
Proof. apply filter_silent. intros e. apply about_wake. Qed.

Lemma pcs_emit (s x : chan) j p e : pcs_upd s x j p -> pcs_upd s (emit x e) j p.
Proof. intros H k. apply (H k). Qed.
Lemma pcs_pre (s : chan) j p e : pcs_upd s (set_pc (emit s e) j p) j p.
Proof. intros k. simpl. unfold upd. destruct (Nat.eqb k j); reflexivity. Qed.
Lemma pcs_set_h (s : chan) j h : pcs_upd s (set_h s j h) j (h_pc h).
Proof. intros k. simpl. unfold upd. destruct (Nat.eqb k j); reflexivity. Qed.

Ltac noself := let k := fresh in let e := fresh in let H := fresh in let X := fresh in
  intros k e H X; simpl in X; repeat (destruct X as [X|X]; [subst e; simpl; try reflexivity; apply Nat.eqb_neq; congruence|]); try destruct X.
Ltac sameops := let l := fresh in let H := fresh in intros l H; exists l; split; [exact H|]; simpl; rewrite ?Nat.eqb_refl, ?app_nil_r; try reflexivity;
  rewrite <- ?app_assoc; reflexivity.

Ltac framenil := match goal with H : InvH ?s |- _ => apply InvH_frame with (s := s) (evs := []); auto; [simpl; now rewrite app_nil_r|intros ? ? []] end.

Lemma InvH_step s l s' : InvL s -> InvH s -> step s l = Some s' -> InvH s'.
Proof.
  intros HL HH Hs. destruct l as [|j k|j v|j v|j w|j|j|j| |w| | |]; simpl in Hs.
  - destruct (recv s) eqn:Er; try discriminate. injection Hs as <-. pose proof (L_new HL Er) as ->.
    intros j. exists []. split; [constructor|]. simpl. unfold upd. destruct (j =? 0); reflexivity.
  - sc Hs. apply InvH_pc with (s := s) (j := k) (p := HIdle) (evs := []); auto.
    + intros i. simpl. unfold upd. destruct (i =? k); reflexivity.
    + simpl. now rewrite app_nil_r.
    + noself.
    + rewrite E0. sameops.
  - sc Hs.
    + eapply InvH_pc with (s := s) (j := j); [auto|apply pcs_pre|reflexivity|noself|]. rewrite E. sameops.
    + apply InvH_pc with (s := s) (j := j) (p := HIdle) (evs := [EStart j v; EFull j v]); auto.
      * intros i. simpl. destruct (Nat.eqb_spec i j) as [->|]; auto.
      * simpl. now rewrite <- app_assoc.
      * noself.
      * rewrite E. intros ll Hl. exists (ll ++ [EStart j v; EFull j v]). split; [now constructor|].
        simpl. now rewrite Nat.eqb_refl, !app_nil_r.
  - sc Hs. eapply InvH_pc with (s := s) (j := j); [auto|apply pcs_pre|reflexivity|noself|]. rewrite E. sameops.
  - assert (X : forall v, (tailof j (h_pc (hs s j)) = [EStart j v]) -> InvH (send_poll s j w v)).
    { intros v Ht. destruct (poll_pcs s j w v) as (p & Hp & Hq). destruct (poll_same s j w v) as (_ & _ & _ & _ & _ & _ & _ & El & _).
      apply InvH_pc with (s := s) (j := j) (p := p) (evs := []); auto; [now rewrite app_nil_r|noself|].
      rewrite Ht. destruct Hq as [->|(d & -> & _)]; sameops. }
    sc Hs; apply X; reflexivity.
  - destruct (wake_log s) as (kk & Ewl).
    destruct (h_pc (hs s j)) as [| |v|v|v|v|d v|d v|x v|x v|v| |] eqn:E; try discriminate.
    + sc Hs.
      * eapply InvH_pc with (s := s) (j := j); [auto|apply pcs_emit, pcs_set_pc|reflexivity|noself|].
        rewrite E. intros ll Hl. exists (ll ++ [EStart j v; ENoRecv j v]). split; [now constructor|].
        simpl. rewrite Nat.eqb_refl, <- !app_assoc. reflexivity.
      * eapply InvH_pc with (s := s) (j := j); [auto|apply pcs_set_pc|symmetry; apply app_nil_r|noself|]. rewrite E. sameops.
    + sc Hs.
      * eapply InvH_pc with (s := s) (j := j); [auto|apply pcs_emit, pcs_set_pc|reflexivity|noself|].
        rewrite E. intros ll Hl. exists (ll ++ [EStart j v; EFull j v]). split; [now constructor|].
        simpl. rewrite Nat.eqb_refl, <- !app_assoc. reflexivity.
      * eapply InvH_pc with (s := s) (j := j); [auto| |symmetry; apply app_nil_r|noself|].
        -- intros k. simpl. unfold upd. destruct (k =? j); reflexivity.
        -- rewrite E. sameops.
    + sc Hs. eapply InvH_pc with (s := s) (j := j); [auto| |symmetry; apply app_nil_r|noself|].
      -- intros k. simpl. unfold upd. destruct (k =? j); reflexivity.
      -- rewrite E. sameops.
    + fold (drop2 N s j d v) in Hs.
      assert (El : exists evs, log (drop2 N s j d v) = log s ++ evs /\ (forall k e, In e evs -> about k e = false)).
      { unfold drop2. destruct (h_slot (hs s j)).
        - rewrite return_log. simpl. destruct (wq s); eexists; (split; [reflexivity|]); simpl; [tauto|].
          intros k e [<-|[]]; reflexivity.
        - exists []. rewrite app_nil_r. split; [reflexivity|intros k e []]. }
      destruct El as (evs & El & Ea).
      assert (Ef : filter (about j) evs = []) by (apply filter_silent; intros; apply Ea; auto).
      sc Hs.
      * apply InvH_pc with (s := s) (j := j) (p := FWrite slot v) (evs := evs); auto using drop2_pcs.
        rewrite E, Ef. sameops.
      * apply InvH_pc with (s := s) (j := j) (p := HIdle) (evs := evs ++ [ENoRecv j v]).
        -- auto.
        -- apply pcs_emit, drop2_pcs.
        -- simpl. now rewrite El, app_assoc.
        -- intros k e Hne Hin. apply in_app_iff in Hin as [Hin|[<-|[]]]; [eauto|]. simpl. apply Nat.eqb_neq. congruence.
        -- rewrite E. intros ll Hl. exists (ll ++ [EStart j v; ENoRecv j v]). split; [now constructor|].
           rewrite filter_app, Ef. simpl. rewrite Nat.eqb_refl, <- !app_assoc. reflexivity.
      * apply InvH_pc with (s := s) (j := j) (p := HIdle) (evs := evs ++ [ECancel j v]).
        -- auto.
        -- apply pcs_emit, drop2_pcs.
        -- simpl. now rewrite El, app_assoc.
        -- intros k e Hne Hin. apply in_app_iff in Hin as [Hin|[<-|[]]]; [eauto|]. simpl. apply Nat.eqb_neq. congruence.
        -- rewrite E. intros ll Hl. exists (ll ++ [EStart j v; ECancel j v]). split; [now constructor|].
           rewrite filter_app, Ef. simpl. rewrite Nat.eqb_refl, <- !app_assoc. reflexivity.
    + sc Hs. eapply InvH_pc with (s := s) (j := j); [auto| |symmetry; apply app_nil_r|noself|].
      -- intros k. simpl. unfold upd. destruct (k =? j); reflexivity.
      -- rewrite E. sameops.
    + sc Hs. eapply InvH_pc with (s := s) (j := j) (evs := [ECommit j v]); [auto| |reflexivity|noself|].
      -- intros k. simpl. unfold upd. destruct (k =? j); reflexivity.
      -- rewrite E. sameops.
    + sc Hs. apply InvH_pc with (s := s) (j := j) (p := HIdle) (evs := map EWakeR kk ++ [ESent j v]).
      -- auto.
      -- apply pcs_emit, wake_pcs.
      -- simpl. now rewrite Ewl, app_assoc.
      -- intros k e Hne Hin. apply in_app_iff in Hin as [Hin|[<-|[]]]; [eapply about_wake; eauto|]. simpl. apply Nat.eqb_neq. congruence.
      -- rewrite E. intros ll Hl. exists (ll ++ [EStart j v; ECommit j v; ESent j v]). split; [now constructor|].
         rewrite filter_app, filter_wake. simpl. rewrite Nat.eqb_refl, <- !app_assoc. reflexivity.
    + sc Hs. apply InvH_pc with (s := s) (j := j) (p := HGone) (evs := map EWakeR kk).
      -- auto.
      -- apply wake_pcs.
      -- simpl. exact Ewl.
      -- intros k e _ Hin. eapply about_wake; eauto.
      -- rewrite E, filter_wake. sameops.
  - sc Hs.
    + eapply InvH_pc with (s := s) (j := j); [auto|apply pcs_emit, pcs_set_pc|reflexivity|noself|].
      rewrite E. intros ll Hl. exists (ll ++ [EStart j v; ECancel j v]). split; [now constructor|].
      simpl. rewrite Nat.eqb_refl, <- !app_assoc. reflexivity.
    + eapply InvH_pc with (s := s) (j := j); [auto|apply pcs_set_pc|symmetry; apply app_nil_r|noself|]. rewrite E. sameops.
  - sc Hs. eapply InvH_pc with (s := s) (j := j); [auto| |symmetry; apply app_nil_r|noself|].
    + intros k. simpl. unfold upd. destruct (k =? j); reflexivity.
    + rewrite E. destruct (pred (nsend s) =? 0); sameops.
  - sc Hs. framenil.
  - sc Hs; framenil.
  - destruct (recv s) as [| |w|w|w x|w x v|w|w| |x| |] eqn:Er; try discriminate.
    + sc Hs. destruct (reg_log s w) as [kk El]. destruct (reg_same s w) as (_ & E1 & _).
      apply InvH_frame with (s := s) (evs := map EWakeR kk); simpl; auto.
      * now rewrite E1.
      * intros k e Hin. eapply about_wake; eauto.
    + sc Hs; framenil.
    + sc Hs; framenil.
    + sc Hs. eapply InvH_frame with (s := s); [auto| | |].
      * intros k. apply (return_pc N s x k).
      * simpl. rewrite return_log, <- app_assoc. reflexivity.
      * intros k e Hin. destruct (wq s); simpl in Hin; [destruct Hin as [<-|[]]; reflexivity|destruct Hin as [<-|[<-|[]]]; reflexivity].
    + sc Hs.
      * eapply InvH_frame with (s := s); [auto| |reflexivity|]; auto. intros k e [<-|[]]; reflexivity.
      * framenil.
      * eapply InvH_frame with (s := s); [auto| |reflexivity|]; auto. intros k e [<-|[]]; reflexivity.
    + sc Hs; framenil.
    + sc Hs.
      * eapply InvH_frame with (s := s); [auto| |reflexivity|]; auto. intros k e [<-|[]]; reflexivity.
      * framenil.
    + sc Hs.
      * framenil.
      * eapply InvH_frame with (s := s); [auto| |reflexivity|].
        -- intros k. simpl. unfold upd. destruct (Nat.eqb_spec k n) as [->|]; reflexivity.
        -- intros k e [<-|[]]; reflexivity.
  - sc Hs; framenil.
  - sc Hs; framenil.
Qed.

(** * Wake-up of the receiver *)
Definition waiting_w (r : rpc V) : option nat :=
  match r with
  | RPop (Some w) | RRead (Some w) _ | RRet (Some w) _ _ | RChk (Some w) | RSleep w => Some w
  | _ => None
  end.
Definition saw_empty (r : rpc V) : bool := match r with RChk (Some _) | RSleep _ => true | _ => false end.

Record InvR (s : chan) : Prop := {
  R_reg : forall w, waiting_w (recv s) = Some w -> rwaker s = Some w \/ r_woken s = true;
  R_msg : saw_empty (recv s) = true -> readyq s <> [] -> r_woken s = true \/ exists j v, h_pc (hs s j) = FWake v;
  R_end : forall w, recv s = RSleep w -> nsend s = 0 -> r_woken s = true \/ exists j, h_pc (hs s j) = HDropWake
}.

(** changes of a handle's pc that do not abandon a pending wake-up *)
Lemma InvR_frame (s s' : chan) :
  InvR s -> rwaker s' = rwaker s -> r_woken s' = r_woken s -> readyq s' = readyq s -> recv s' = recv s -> nsend s' = nsend s ->
  (forall j, match h_pc (hs s j) with FWake _ | HDropWake => h_pc (hs s' j) = h_pc (hs s j) | _ => True end) -> InvR s'.
Proof.
  intros [H1 H2 H3] E1 E2 E3 E4 E5 Hp. constructor; rewrite ?E1, ?E2, ?E3, ?E4, ?E5; auto.
  - intros Ha Hb. destruct (H2 Ha Hb) as [?|(j & v & E)]; [auto|]. right. exists j, v. specialize (Hp j). rewrite E in Hp. exact Hp.
  - intros w Ha Hb. destruct (H3 w Ha Hb) as [?|(j & E)]; [auto|]. right. exists j. specialize (Hp j). rewrite E in Hp. exact Hp.
Qed.

Lemma InvR_pc (s s' : chan) j p :
  InvR s -> rwaker s' = rwaker s -> r_woken s' = r_woken s -> readyq s' = readyq s -> recv s' = recv s -> nsend s' = nsend s ->
  pcs_upd s s' j p -> match h_pc (hs s j) with FWake _ | HDropWake => False | _ => True end -> InvR s'.
Proof.
  intros H E1 E2 E3 E4 E5 Hp Hj. apply InvR_frame with (s := s); auto. intros k. rewrite Hp.
  destruct (Nat.eqb_spec k j) as [->|]; [|destruct (h_pc (hs s k)); auto].
  destruct (h_pc (hs s j)); auto; contradiction.
Qed.

Lemma InvR_idle (s : chan) : waiting_w (recv s) = None -> InvR s.
Proof.
  intros H. constructor.
  - intros w X. congruence.
  - destruct (recv s) as [| | |[?|]| | |[?|]| | | | |]; simpl in *; try discriminate.
  - intros w X. rewrite X in H. discriminate.
Qed.

Lemma wake_woken (s : chan) w : waiting_w (recv s) = Some w -> InvR s -> r_woken (wake_receiver s) = true.
Proof.
  intros H HR. unfold wake_receiver. destruct (R_reg HR H) as [->|E]; simpl; [reflexivity|].
  destruct (wreg_wake (rwaker s)) as [r [|? ?]]; simpl; auto.
Qed.

Lemma InvR_wake (s s' : chan) : InvR s -> recv s' = recv s -> r_woken s' = r_woken (wake_receiver s) -> InvR s'.
Proof.
  intros HR E1 E2. destruct (waiting_w (recv s)) as [w|] eqn:Ew; [|apply InvR_idle; now rewrite E1].
  assert (r_woken s' = true) by (rewrite E2; eapply wake_woken; eauto).
  constructor; auto.
Qed.

Lemma InvR_step s l s' : InvL s -> InvR s -> step s l = Some s' -> InvR s'.
Proof.
  intros HL HR Hs. destruct l as [|j k|j v|j v|j w|j|j|j| |w| | |]; simpl in Hs.
  - sc Hs. apply InvR_idle. reflexivity.
  - sc Hs. destruct HR as [H1 H2 H3].
    assert (Hp : forall i, i <> k -> h_pc (hs (set_h s k (mkH HIdle LNone None 0 false 0)) i) = h_pc (hs s i)).
    { intros i Hi. simpl. now rewrite upd_other. }
    constructor; simpl; auto.
    + intros Ha Hb. destruct (H2 Ha Hb) as [?|(i & v & Ei)]; [auto|]. right. exists i, v. rewrite <- Ei. apply Hp. congruence.
    + intros w Ha Hb. discriminate.
  - sc Hs.
    + eapply InvR_pc with (s := s) (j := j); auto; [apply pcs_pre|now rewrite E].
    + apply InvR_frame with (s := s); auto. intros i. destruct (h_pc (hs s i)) eqn:Ei; auto.
  - sc Hs. eapply InvR_pc with (s := s) (j := j); auto; [apply pcs_pre|now rewrite E].
  - assert (X : forall v, match h_pc (hs s j) with FWake _ | HDropWake => False | _ => True end -> InvR (send_poll s j w v)).
    { intros v Ht. destruct (poll_pcs s j w v) as (p & Hp & _). destruct (poll_same s j w v) as (E1 & _ & E2 & E3 & E4 & E5 & _).
      eapply InvR_pc with (s := s) (j := j); eauto. }
    sc Hs; apply X; exact I.
  - destruct (wake_same s) as (_ & _ & _ & _ & _ & _ & Ew & _).
    destruct (h_pc (hs s j)) as [| |v|v|v|v|d v|d v|x v|x v|v| |] eqn:E; try discriminate.
    + sc Hs; (eapply InvR_pc with (s := s) (j := j); auto; [try apply pcs_emit; apply pcs_set_pc|now rewrite E]).
    + sc Hs; (eapply InvR_pc with (s := s) (j := j); auto; [try apply pcs_emit; apply (pcs_set_pc s j)|now rewrite E]).
    + sc Hs. eapply InvR_pc with (s := s) (j := j); auto; [apply (pcs_set_h s j)|now rewrite E].
    + fold (drop2 N s j d v) in Hs. destruct (drop2_same N s j d v) as (E1 & _ & E2 & E3 & E4 & E5 & _).
      sc Hs; (eapply InvR_pc with (s := s) (j := j); simpl; auto; [try apply pcs_emit; apply drop2_pcs|now rewrite E]).
    + sc Hs. eapply InvR_pc with (s := s) (j := j); auto; [apply (pcs_set_pc s j)|now rewrite E].
    + sc Hs. destruct HR as [H1 H2 H3]. constructor; simpl; auto.
      * intros _ _. right. exists j, v. now rewrite upd_same.
      * intros w Ha Hb. destruct (H3 w Ha Hb) as [?|(i & Ei)]; [auto|]. right. exists i. rewrite upd_other; [auto|congruence].
    + sc Hs. eapply InvR_wake with (s := s); eauto.
    + sc Hs. eapply InvR_wake with (s := s); eauto.
  - sc Hs; (eapply InvR_pc with (s := s) (j := j); auto; [try apply pcs_emit; apply (pcs_set_pc s j)|now rewrite E]).
  - sc Hs. destruct HR as [H1 H2 H3]. constructor; simpl; auto.
    + intros Ha Hb. destruct (H2 Ha Hb) as [?|(i & v & Ei)]; [auto|]. right. exists i, v. rewrite upd_other; [auto|congruence].
    + intros w Ha Hb. right. exists j. rewrite upd_same. simpl. now rewrite Hb.
  - sc Hs. apply InvR_idle. reflexivity.
  - sc Hs; apply InvR_idle; reflexivity.
  - destruct (recv s) as [| |w|w|w x|w x v|w|w| |x| |] eqn:Er; try discriminate.
    + sc Hs. constructor; simpl; try discriminate. intros w' [= <-]. left.
      unfold register_receiver, wreg_register. destruct (rwaker s) as [w2|]; [|reflexivity].
      destruct (Nat.eqb_spec w2 w) as [->|]; reflexivity.
    + sc Hs; destruct HR as [H1 H2 H3]; rewrite Er in *; destruct w as [w|]; simpl in *; try (apply InvR_idle; reflexivity).
      * constructor; simpl; auto; try (intros w0; exact (H1 w0)); try congruence; try discriminate.
      * constructor; simpl; auto; try (intros w0; exact (H1 w0)); try congruence; try discriminate.
    + sc Hs; destruct HR as [H1 H2 H3]; rewrite Er in *; destruct w as [w|]; simpl in *; try (apply InvR_idle; simpl; now rewrite ?Er).
      * constructor; simpl; auto; try (intros w0; exact (H1 w0)); try congruence; try discriminate.
      * constructor; simpl; rewrite Er; simpl; auto; try (intros w0; exact (H1 w0)); try congruence; try discriminate.
    + sc Hs. apply InvR_idle. reflexivity.
    + sc Hs; destruct HR as [H1 H2 H3]; rewrite Er in *; try (apply InvR_idle; reflexivity).
      constructor; simpl; auto. intros w' _ X. congruence.
    + sc Hs; apply InvR_idle; reflexivity.
    + sc Hs; apply InvR_idle; simpl; now rewrite ?Er.
    + sc Hs; apply InvR_idle; simpl; now rewrite ?Er.
  - sc Hs. apply InvR_idle. reflexivity.
  - sc Hs. apply InvR_idle. reflexivity.
Qed.

(** * Order of waiting senders *)
Record InvS (s : chan) : Prop := {
  S_lt : forall j, In j (wq s) -> h_seq (hs s j) < seqno s;
  S_sorted : StronglySorted (fun a b => h_seq (hs s a) < h_seq (hs s b)) (wq s);
  S_woken : forall j, h_link (hs s j) = LPopped -> h_woken (hs s j) = true
}.

Lemma SS_ext (f g : nat -> nat) l : (forall j, In j l -> f j = g j) ->
  StronglySorted (fun a b => f a < f b) l -> StronglySorted (fun a b => g a < g b) l.
Proof.
  intros He H. induction H as [|a l Hs IH Hf]; constructor.
  - apply IH. intros. apply He. now right.
  - rewrite Forall_forall in *. intros b Hb. rewrite <- !He by (simpl; auto). auto.
Qed.
Lemma SS_remove (R : nat -> nat -> Prop) j l : StronglySorted R l -> StronglySorted R (remove Nat.eq_dec j l).
Proof.
  intros H. induction H as [|a l Hs IH Hf]; simpl; [constructor|]. destruct (Nat.eq_dec j a); [auto|].
  constructor; [auto|]. rewrite Forall_forall in *. intros b Hb. apply in_remove in Hb. apply Hf. tauto.
Qed.
Lemma SS_snoc (R : nat -> nat -> Prop) j l : StronglySorted R l -> (forall a, In a l -> R a j) -> StronglySorted R (l ++ [j]).
Proof.
  intros H. induction H as [|a l Hs IH Hf]; simpl; intros Hj; [repeat constructor|].
  constructor; [apply IH; auto|]. rewrite Forall_forall in *. intros b Hb. apply in_app_iff in Hb as [Hb|[<-|[]]]; auto.
Qed.

Lemma InvS_frame (s s' : chan) :
  InvS s -> wq s' = wq s -> seqno s' = seqno s ->
  (forall j, h_seq (hs s' j) = h_seq (hs s j) /\ h_woken (hs s' j) = h_woken (hs s j) /\
             (h_link (hs s' j) = h_link (hs s j) \/ h_link (hs s' j) = LNone)) -> InvS s'.
Proof.
  intros [H1 H2 H3] E1 E2 E3. constructor.
  - intros j. rewrite E1, E2. destruct (E3 j) as [-> _]. auto.
  - rewrite E1. eapply SS_ext; [|exact H2]. intros j _. now destruct (E3 j) as [-> _].
  - intros j. destruct (E3 j) as (_ & -> & [->| ->]); [auto|discriminate].
Qed.

Lemma InvS_set (s : chan) j h : InvS s -> ~ In j (wq s) \/ h_seq h = h_seq (hs s j) ->
  (h_link h = LPopped -> h_woken h = true) -> InvS (set_h s j h).
Proof.
  intros [H1 H2 H3] Hn Hl. constructor; simpl.
  - intros k Hk. unfold upd. destruct (Nat.eqb_spec k j) as [->|]; [|auto]. destruct Hn as [Hn| ->]; [contradiction|auto].
  - eapply SS_ext; [|exact H2]. intros k Hk. unfold upd. destruct (Nat.eqb_spec k j) as [->|]; [|auto]. destruct Hn as [Hn| ->]; [contradiction|auto].
  - intros k. unfold upd. destruct (Nat.eqb_spec k j) as [->|]; auto.
Qed.

Lemma InvS_same (s s' : chan) : InvS s -> wq s' = wq s -> seqno s' = seqno s -> hs s' = hs s -> InvS s'.
Proof. intros H E1 E2 E3. apply InvS_frame with (s := s); auto. intros j. rewrite E3. auto. Qed.

Lemma InvS_pc (s : chan) j p : InvS s -> InvS (set_pc s j p).
Proof. intros H. apply InvS_set; auto. apply (S_woken H). Qed.

Lemma InvS_pop (s : chan) j q h : InvS s -> wq s = j :: q -> h_seq h = h_seq (hs s j) -> h_woken h = true ->
  InvS (set_h (set_wq s q) j h).
Proof.
  intros [H1 H2 H3] Eq Es Ew. rewrite Eq in *. inversion H2; subst. constructor; simpl.
  - intros k Hk. unfold upd. destruct (Nat.eqb_spec k j) as [->|]; [rewrite Es|]; apply H1; simpl; auto.
  - apply (SS_ext (fun a => h_seq (hs s a)) (fun a => h_seq (upd (hs s) j h a))); [|assumption]. intros k Hk. unfold upd. destruct (Nat.eqb_spec k j) as [->|]; auto.
  - intros k. unfold upd. destruct (Nat.eqb_spec k j) as [->|]; auto.
Qed.

Lemma InvS_return (s : chan) x : InvS s -> InvS (return_slot N s x).
Proof.
  intros H. unfold return_slot. destruct (wq s) as [|j q] eqn:Eq.
  - apply InvS_same with (s := s); auto.
  - match goal with |- InvS (emit ?x _) => apply InvS_same with (s := x); auto end. apply InvS_pop; auto.
Qed.

Lemma InvS_poll (s : chan) j w v : InvL s -> InvS s -> InvS (send_poll s j w v).
Proof.
  intros HL HS. unfold send_poll. destruct (rdropped s); [now apply InvS_pc|].
  destruct (h_link (hs s j)) eqn:El; [|now apply InvS_pc|apply InvS_set; simpl; auto; discriminate].
  assert (Hn : ~ In j (wq s)) by (rewrite (L_in HL); congruence).
  assert (Hpush : forall fq, InvS (mkC fq (readyq s) (slots s) (wq s ++ [j]) (rdropped s) (nsend s) (rwaker s)
                (upd (hs s) j (mkH (SWait v) LQueued (h_slot (hs s j)) w false (seqno s)))
                (recv s) (r_woken s) (bug s) (S (seqno s)) (log s))).
  { intros fq. destruct HS as [H1 H2 H3]. constructor; simpl.
    - intros k. rewrite in_app_iff. simpl. unfold upd. destruct (Nat.eqb_spec k j) as [->|]; simpl; [lia|].
      intros [Hk|[Hk|[]]]; [|congruence]. specialize (H1 k Hk). lia.
    - apply SS_snoc.
      + eapply SS_ext; [|exact H2]. intros k Hk. rewrite upd_other; [reflexivity|]. intros ->. contradiction.
      + intros a Ha. rewrite upd_same, upd_other; [simpl; auto|]. intros ->. contradiction.
    - intros k. unfold upd. destruct (Nat.eqb_spec k j) as [->|]; simpl; [discriminate|auto]. }
  destruct (wq s) as [|k q] eqn:Eq; [destruct (freeq s) as [|x f] eqn:Ef|].
  - cbn. rewrite ?Eq. apply Hpush.
  - apply InvS_pc. apply InvS_same with (s := s); auto.
  - cbn. rewrite ?Eq. apply Hpush.
Qed.

Lemma InvS_step s l s' : InvL s -> InvS s -> step s l = Some s' -> InvS s'.
Proof.
  intros HL HS Hs. destruct l as [|j k|j v|j v|j w|j|j|j| |w| | |]; simpl in Hs.
  - destruct (recv s) eqn:Er; try discriminate. injection Hs as <-. pose proof (L_new HL Er) as ->.
    constructor; simpl; [tauto|constructor|]. intros j. unfold upd. destruct (j =? 0); discriminate.
  - sc Hs. apply InvS_same with (s := set_h s k (mkH HIdle LNone None 0 false 0)); auto.
    apply InvS_set; auto; [|discriminate]. left. rewrite (L_in HL).
    pose proof (L_h HL k) as Hk. unfold hok in Hk. rewrite E0 in Hk. destruct Hk. congruence.
  - sc Hs; [apply InvS_pc|]; apply InvS_same with (s := s); auto.
  - sc Hs. apply InvS_pc; apply InvS_same with (s := s); auto.
  - sc Hs; apply InvS_poll; auto.
  - destruct (wake_same s) as (Ew1 & Ew2 & _ & _ & _ & _ & _ & _ & _ & Ew3).
    destruct (h_pc (hs s j)) as [| |v|v|v|v|d v|d v|x v|x v|v| |] eqn:E; try discriminate.
    + sc Hs; [unfold finish; apply InvS_same with (s := set_pc s j HIdle); auto|]; now apply InvS_pc.
    + sc Hs; [unfold finish; apply InvS_same with (s := set_pc s j HIdle); auto; now apply InvS_pc|].
      apply InvS_pc; apply InvS_same with (s := s); auto.
    + sc Hs. destruct HS as [H1 H2 H3]. constructor; simpl.
      * intros k Hk. apply in_remove in Hk as [Hk Hne]. rewrite upd_other by auto. auto.
      * apply SS_remove with (j := j) in H2. eapply SS_ext; [|exact H2]. intros k Hk. apply in_remove in Hk as [Hk Hne]. now rewrite upd_other by auto.
      * intros k. unfold upd. destruct (Nat.eqb_spec k j) as [->|]; simpl; [discriminate|auto].
    + fold (drop2 N s j d v) in Hs.
      assert (X : InvS (drop2 N s j d v)).
      { unfold drop2. destruct (h_slot (hs s j)); [apply InvS_return|]; apply InvS_set; auto; apply (S_woken HS). }
      sc Hs; unfold finish; [now apply InvS_pc| |];
        (match goal with |- InvS (emit ?x _) => apply InvS_same with (s := x); auto end; now apply InvS_pc).
    + sc Hs. apply InvS_pc; apply InvS_same with (s := s); auto.
    + sc Hs. apply InvS_pc; apply InvS_same with (s := s); auto.
    + sc Hs. unfold finish. apply InvS_same with (s := set_pc (wake_receiver s) j HIdle); auto. apply InvS_pc; apply InvS_same with (s := s); auto.
    + sc Hs. apply InvS_pc; apply InvS_same with (s := s); auto.
  - sc Hs; [unfold finish; apply InvS_same with (s := set_pc s j HIdle); auto|]; now apply InvS_pc.
  - sc Hs. apply InvS_pc; apply InvS_same with (s := s); auto.
  - sc Hs. apply InvS_same with (s := s); auto.
  - sc Hs; apply InvS_same with (s := s); auto.
  - destruct (recv s) as [| |w|w|w x|w x v|w|w| |x| |] eqn:Er; try discriminate.
    + sc Hs. destruct (reg_same s w) as (E1 & E2 & _ & _ & _ & _ & _ & _ & _ & E3). apply InvS_same with (s := s); auto.
    + sc Hs; apply InvS_same with (s := s); auto.
    + sc Hs; apply InvS_same with (s := s); auto.
    + sc Hs. apply InvS_same with (s := return_slot N s x); auto. now apply InvS_return.
    + sc Hs; apply InvS_same with (s := s); auto.
    + sc Hs; apply InvS_same with (s := s); auto.
    + sc Hs; apply InvS_same with (s := s); auto.
    + sc Hs; [apply InvS_same with (s := s); auto|].
      match goal with |- InvS (emit ?x _) => apply InvS_same with (s := x); auto end. apply InvS_pop; auto.
  - sc Hs; apply InvS_same with (s := s); auto.
  - sc Hs; apply InvS_same with (s := s); auto.
Qed.

Record InvX (s : chan) : Prop := { X_A : InvAll N s; X_T : InvT s; X_H : InvH s; X_R : InvR s; X_S : InvS s }.

Lemma InvX_reach s : creach N s -> InvX s.
Proof.
  revert s. apply reach_inv.
  - constructor.
    + apply InvAll_reach. apply reach_refl.
    + constructor; simpl; [reflexivity|now exists []].
    + intros j. exists []. split; [constructor|reflexivity].
    + apply InvR_idle. reflexivity.
    + constructor; simpl; [tauto|constructor|discriminate].
  - intros s l s' [[H1 H2 H3 H4] H5 H6 H7 H8] Hs. constructor.
    + constructor.
      * eapply InvL_step; eauto.
      * eapply InvO_step; eauto.
      * eapply InvN_step; eauto.
      * eapply bug_step; eauto.
    + eapply InvT_step; eauto.
    + eapply InvH_step; eauto.
    + eapply InvR_step; eauto.
    + eapply InvS_step; eauto.
Qed.
End T.
