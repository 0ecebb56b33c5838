(** Progress facts for the executor: a pass of the dispatcher polls every task that is due when it starts. *)
From Verif Require Import Base LTS ExecModel ExecSpec ExecProofs.
Set Implicit Arguments.

Section Progress.
Context {V : Type} (zero : bool) (tasks : list nat).
Implicit Types (s : @ex V) (t c id : nat) (v : V).
Notation step := (@xstep V zero tasks).

(** *** Logs only grow *)
Lemma elog_step s l s' : step s l = Some s' -> exists es, elog s' = elog s ++ es.
Proof.
  unfold xstep. destruct (ebug s); [discriminate|]. intros Hs. destruct l as [c t v|c t|c| | |r].
  - destruct (ctx s c); try discriminate. destruct (in_dec Nat.eq_dec t tasks); [|discriminate]. injection Hs as <-.
    unfold do_spawn. destruct (running s t); simpl; eauto.
  - destruct (ctx s c); try discriminate. destruct (in_dec Nat.eq_dec t tasks); [|discriminate]. injection Hs as <-. exists []. simpl. now rewrite app_nil_r.
  - unfold ctx_step in Hs. destruct (ctx s c); try discriminate; injection Hs as <-; simpl; eauto; exists []; now rewrite app_nil_r.
  - destruct (dp s); try discriminate. destruct (zero || irq s)%bool; [|discriminate]. injection Hs as <-. exists []. simpl. now rewrite app_nil_r.
  - destruct (dp s); try discriminate. destruct (negb zero && irq s)%bool; [|discriminate]. injection Hs as <-. exists []. simpl. now rewrite app_nil_r.
  - unfold disp_step in Hs. destruct (dp s) as [|tsE|[|t ts]|t ts|t ts|t ts]; try discriminate.
    + injection Hs as <-. exists []. simpl. now rewrite app_nil_r.
    + injection Hs as <-. exists []. simpl. now rewrite app_nil_r.
    + injection Hs as <-. exists []. simpl. now rewrite app_nil_r.
    + destruct (pending s t); [destruct (slot s t)|]; injection Hs as <-; simpl; eauto; exists []; now rewrite app_nil_r.
    + destruct r; [destruct (slot s t); try discriminate|]; injection Hs as <-; exists []; simpl; now rewrite app_nil_r.
    + destruct (slot s t); try discriminate. injection Hs as <-. simpl. eauto.
Qed.

Lemma elog_run ls : forall s s', run step s ls = Some s' -> exists es, elog s' = elog s ++ es.
Proof.
  induction ls as [|l ls IH]; simpl; intros s s' Hr.
  - injection Hr as <-. exists []. now rewrite app_nil_r.
  - destruct (step s l) as [s1|] eqn:E; [|discriminate]. apply elog_step in E as [e1 E1]. apply IH in Hr as [e2 E2].
    exists (e1 ++ e2). now rewrite E2, E1, app_assoc.
Qed.

Lemma xemits_left s s1 s2 e : xemits s s1 e -> (exists es, elog s2 = elog s1 ++ es) -> xemits s s2 e.
Proof. intros (e1 & E1 & Hin) [e2 E2]. exists (e1 ++ e2). rewrite E2, E1, app_assoc. split; [reflexivity|]. apply in_app_iff. now left. Qed.
Lemma xemits_right s s1 s2 e : (exists es, elog s1 = elog s ++ es) -> xemits s1 s2 e -> xemits s s2 e.
Proof. intros [e1 E1] (e2 & E2 & Hin). exists (e1 ++ e2). rewrite E2, E1, app_assoc. split; [reflexivity|]. apply in_app_iff. now right. Qed.

(** *** The pending flag is cleared by a poll only *)
Lemma pending_step s l s' t : step s l = Some s' -> pending s t = true ->
  pending s' t = true \/ ebug s' = true \/ exists id v, xemits s s' (XPoll t id v).
Proof.
  unfold xstep. destruct (ebug s) eqn:Eb; [discriminate|]. intros Hs Hp. destruct l as [c t' v|c t'|c| | |r].
  - destruct (ctx s c); try discriminate. destruct (in_dec Nat.eq_dec t' tasks); [|discriminate]. injection Hs as <-.
    unfold do_spawn. destruct (running s t'); simpl; auto.
  - destruct (ctx s c); try discriminate. destruct (in_dec Nat.eq_dec t' tasks); [|discriminate]. injection Hs as <-. simpl. unfold upd. destruct (Nat.eqb t t'); auto.
  - unfold ctx_step in Hs. destruct (ctx s c); try discriminate; injection Hs as <-; simpl; auto. unfold upd. destruct (Nat.eqb t t0); auto.
  - destruct (dp s); try discriminate. destruct (zero || irq s)%bool; [|discriminate]. injection Hs as <-. auto.
  - destruct (dp s); try discriminate. destruct (negb zero && irq s)%bool; [|discriminate]. injection Hs as <-. auto.
  - unfold disp_step in Hs. destruct (dp s) as [|tsE|[|t' ts]|t' ts|t' ts|t' ts]; try discriminate.
    + injection Hs as <-. auto.
    + injection Hs as <-. auto.
    + injection Hs as <-. auto.
    + destruct (pending s t') eqn:Ep; [destruct (slot s t') as [|id v|id] eqn:Es|]; injection Hs as <-; simpl; auto.
      destruct (Nat.eq_dec t t') as [->|N]; [|rewrite upd_other by assumption; auto].
      right. right. exists id, v. exists [XPoll t' id v]. simpl. auto.
    + destruct r; [destruct (slot s t'); try discriminate|]; injection Hs as <-; auto.
    + destruct (slot s t'); try discriminate. injection Hs as <-. auto.
Qed.

Lemma pending_run t ls : forall s s', run step s ls = Some s' -> pending s t = true ->
  pending s' t = true \/ ebug s' = true \/ exists id v, xemits s s' (XPoll t id v).
Proof.
  induction ls as [|l ls IH]; simpl; intros s s' Hr Hp.
  - injection Hr as <-. auto.
  - destruct (step s l) as [s1|] eqn:E; [|discriminate].
    destruct (pending_step s l t E Hp) as [Hp1|[Hb|(id & v & X)]].
    + destruct (IH _ _ Hr Hp1) as [Y|[Y|(id & v & Y)]]; auto. right. right. exists id, v. eapply xemits_right; eauto. eapply elog_step; eauto.
    + right. left. destruct ls as [|l' ls]; simpl in Hr; [injection Hr as <-; auto|]. unfold xstep in Hr. rewrite Hb in Hr. discriminate.
    + right. right. exists id, v. eapply xemits_left; eauto. eapply elog_run; eauto.
Qed.

(** *** A pass reaches every task *)
Definition NInv s : Prop := NoDup (ahead (dp s)) /\ forall t, inside (dp s) = Some t -> ~ In t (ahead (dp s)).

Lemma NInv_step s l s' : NoDup tasks -> NInv s -> step s l = Some s' -> NInv s'.
Proof.
  intros Hnd [H1 H2] Hs. unfold xstep in Hs. destruct (ebug s) eqn:Eb; [discriminate|]. destruct l as [c t v|c t|c| | |r].
  - destruct (ctx s c); try discriminate. destruct (in_dec Nat.eq_dec t tasks); [|discriminate]. injection Hs as <-.
    unfold do_spawn. destruct (running s t); split; auto.
  - destruct (ctx s c); try discriminate. destruct (in_dec Nat.eq_dec t tasks); [|discriminate]. injection Hs as <-. split; auto.
  - unfold ctx_step in Hs. destruct (ctx s c); try discriminate; injection Hs as <-; split; auto.
  - destruct (dp s); try discriminate. destruct (zero || irq s)%bool; [|discriminate]. injection Hs as <-. split; [exact Hnd|discriminate].
  - destruct (dp s); try discriminate. destruct (negb zero && irq s)%bool; [|discriminate]. injection Hs as <-. split; [exact Hnd|discriminate].
  - unfold NInv. unfold disp_step in Hs. destruct (dp s) as [|tsE|[|t ts]|t ts|t ts|t ts] eqn:Ed; try discriminate; simpl in *.
    + injection Hs as <-. split; [exact H1|discriminate].
    + injection Hs as <-. split; [constructor|discriminate].
    + injection Hs as <-. simpl. destruct (running s t); simpl; (split; [|discriminate]); auto. now inversion H1.
    + destruct (pending s t); [destruct (slot s t)|]; injection Hs as <-; simpl.
      * now rewrite Ed.
      * inversion H1; subst. split; auto. intros t' [= <-]. assumption.
      * now rewrite Ed.
      * split; [now inversion H1|discriminate].
    + destruct r; [destruct (slot s t); try discriminate|]; injection Hs as <-; simpl; (split; [assumption|]); auto. discriminate.
    + destruct (slot s t); try discriminate. injection Hs as <-; simpl; (split; [assumption|]); discriminate.
Qed.

Lemma NInv_reach s : NoDup tasks -> xreach zero tasks s -> NInv s.
Proof. intros Hnd. apply reach_inv; [split; [constructor|discriminate]|]. intros. eapply NInv_step; eauto. Qed.

(** Task [t], alive with instance [id], waits for its turn in the running pass. *)
Definition queued s t id v : Prop :=
  running s t = true /\ pending s t = true /\ slot s t = FLive id v /\ In t (ahead (dp s)).

Lemma queued_step s l s' t id v : EInv zero tasks s -> NInv s -> step s l = Some s' -> queued s t id v ->
  queued s' t id v \/ ebug s' = true \/ xemits s s' (XPoll t id v).
Proof.
  intros HE HN Hs (Q1 & Q2 & Q3 & Q4). unfold xstep in Hs. destruct (ebug s) eqn:Eb; [discriminate|].
  assert (Hni : inside (dp s) <> Some t) by (intros X; destruct HN as [_ HN]; exact (HN _ X Q4)).
  destruct l as [c t' v'|c t'|c| | |r].
  - destruct (ctx s c); try discriminate. destruct (in_dec Nat.eq_dec t' tasks); [|discriminate]. injection Hs as <-.
    left. unfold do_spawn. destruct (running s t') eqn:Er; repeat split; auto. simpl. unfold upd. destruct (Nat.eqb t t'); auto.
  - destruct (ctx s c); try discriminate. destruct (in_dec Nat.eq_dec t' tasks); [|discriminate]. injection Hs as <-.
    left. repeat split; auto. simpl. unfold upd. destruct (Nat.eqb t t'); auto.
  - unfold ctx_step in Hs. destruct (ctx s c) eqn:Ec; try discriminate; injection Hs as <-; left; repeat split; auto; simpl.
    + rewrite upd_other; [exact Q3|]. intros ->. destruct (E_win HE (c := c) (t := t0)) as (_ & _ & X); [eexists; eexists; eauto|]. exact (X _ _ Q3).
    + unfold upd. destruct (Nat.eqb t t0); auto.
  - destruct (dp s) eqn:Ed; try discriminate. simpl in Q4. destruct Q4.
  - destruct (dp s) eqn:Ed; try discriminate. simpl in Q4. destruct Q4.
  - unfold disp_step in Hs. destruct (dp s) as [|tsE|[|t' ts]|t' ts|t' ts|t' ts] eqn:Ed; try discriminate; simpl in *.
    + injection Hs as <-. left. repeat split; auto.
    + destruct Q4.
    + injection Hs as <-. left. repeat split; auto. simpl. destruct Q4 as [->|Q4]; [rewrite Q1; now left|]. destruct (running s t'); simpl; auto.
    + destruct (Nat.eq_dec t t') as [->|N].
      * rewrite Q2, Q3 in Hs. injection Hs as <-. right. right. exists [XPoll t' id v]. simpl. auto.
      * destruct Q4 as [->|Q4]; [congruence|]. destruct (pending s t') eqn:Ep; [destruct (slot s t') as [|id' v'|id'] eqn:Es|]; injection Hs as <-; auto; left; repeat split; simpl; auto; now rewrite upd_other.
    + destruct r; [destruct (slot s t'); try discriminate|]; injection Hs as <-; left; repeat split; auto. simpl. rewrite upd_other; [exact Q3|congruence].
    + destruct (slot s t'); try discriminate. injection Hs as <-. left. repeat split; auto. simpl. rewrite upd_other; [exact Q1|congruence].
Qed.

Lemma queued_run t id v ls : NoDup tasks -> forall s s', xreach zero tasks s -> run step s ls = Some s' -> queued s t id v ->
  queued s' t id v \/ ebug s' = true \/ xemits s s' (XPoll t id v).
Proof.
  intros Hnd. induction ls as [|l ls IH]; simpl; intros s s' Hx Hr Hq.
  - injection Hr as <-. auto.
  - destruct (step s l) as [s1|] eqn:E; [|discriminate].
    destruct (queued_step l (EInv_reach Hx) (NInv_reach Hnd Hx) E Hq) as [Hq1|[Hb|X]].
    + assert (Hx1 : xreach zero tasks s1) by (eapply reach_step; eauto).
      destruct (IH _ _ Hx1 Hr Hq1) as [Y|[Y|Y]]; auto. right. right. eapply xemits_right; eauto. eapply elog_step; eauto.
    + right. left. destruct ls as [|l' ls]; simpl in Hr; [injection Hr as <-; auto|]. unfold xstep in Hr. rewrite Hb in Hr. discriminate.
    + right. right. eapply xemits_left; eauto. eapply elog_run; eauto.
Qed.

(** *** Passes end *)
Definition left_to_do (d : dpc) : nat :=
  match d with
  | DIdle => 0
  | DEnter ts => 2 + 4 * length ts
  | DAt ts => 1 + 4 * length ts
  | DChk _ ts => 4 + 4 * length ts
  | DIn _ ts => 3 + 4 * length ts
  | DFin _ ts => 2 + 4 * length ts
  end.

Lemma disp_decreases s r s' : step s (LDisp r) = Some s' -> ebug s' = true \/ left_to_do (dp s') < left_to_do (dp s).
Proof.
  unfold xstep. destruct (ebug s); [discriminate|]. unfold disp_step. destruct (dp s) as [|tsE|[|t ts]|t ts|t ts|t ts] eqn:Ed; try discriminate; intros Hs.
  - injection Hs as <-. right. simpl. lia.
  - injection Hs as <-. right. simpl. lia.
  - injection Hs as <-. right. simpl. destruct (running s t); simpl; lia.
  - destruct (pending s t); [destruct (slot s t)|]; injection Hs as <-; simpl; auto; right; lia.
  - destruct r; [destruct (slot s t); try discriminate|]; injection Hs as <-; simpl; right; lia.
  - destruct (slot s t); try discriminate. injection Hs as <-. simpl. right. lia.
Qed.

Lemma disp_enabled s : EInv zero tasks s -> ebug s = false -> dp s <> DIdle -> forall r, exists s', step s (LDisp r) = Some s'.
Proof.
  intros HE Hb Hd r. unfold xstep. rewrite Hb. unfold disp_step. destruct (dp s) as [|tsE|[|t ts]|t ts|t ts|t ts] eqn:Ed; eauto.
  - congruence.
  - destruct (pending s t); [destruct (slot s t)|]; eauto.
  - destruct (E_in HE Ed) as (id & v & ->). destruct r; eauto.
  - destruct (E_fin HE Ed) as (id & ->). eauto.
Qed.

Lemma others_keep_dp s l s' : step s l = Some s' -> (forall r, l <> LDisp r) -> l <> LDispatch -> l <> LAccept -> dp s' = dp s.
Proof.
  unfold xstep. destruct (ebug s); [discriminate|]. intros Hs Hl1 Hl2 Hl3. destruct l as [c t v|c t|c| | |r]; try congruence.
  - destruct (ctx s c); try discriminate. destruct (in_dec Nat.eq_dec t tasks); [|discriminate]. injection Hs as <-. unfold do_spawn. destruct (running s t); reflexivity.
  - destruct (ctx s c); try discriminate. destruct (in_dec Nat.eq_dec t tasks); [|discriminate]. injection Hs as <-. reflexivity.
  - unfold ctx_step in Hs. destruct (ctx s c); try discriminate; injection Hs as <-; reflexivity.
Qed.

(** Whatever the polls return, an undisturbed pass comes to its end. *)
Lemma pass_ends n : forall s (rs : nat -> bool), xreach zero tasks s -> ebug s = false -> left_to_do (dp s) <= n ->
  exists k s', run step s (map (fun i => LDisp (rs i)) (seq 0 k)) = Some s' /\ (ebug s' = true \/ dp s' = DIdle).
Proof.
  induction n as [|n IH]; intros s rs Hx Hb Hn.
  - exists 0, s. split; [reflexivity|]. right. destruct (dp s); simpl in Hn; try lia. reflexivity.
  - destruct (dp s) eqn:Ed; [exists 0, s; simpl; auto|..];
    (assert (Hd : dp s <> DIdle) by congruence; destruct (disp_enabled (EInv_reach Hx) Hb Hd (rs 0)) as [s1 E];
     destruct (disp_decreases s _ E) as [Hb1|Hlt];
     [exists 1, s1; split; [simpl; now rewrite E|now left]|];
     rewrite Ed in Hlt;
     assert (Hx1 : xreach zero tasks s1) by (eapply reach_step; eauto);
     destruct (ebug s1) eqn:Hb1; [exists 1, s1; split; [simpl; now rewrite E|now left]|];
     destruct (IH s1 (fun i => rs (S i)) Hx1 Hb1) as (k & s2 & Hr & Hend); [lia|];
     exists (S k), s2; split; [|exact Hend]; simpl; rewrite E, <- seq_shift, map_map; exact Hr).
Qed.

(** *** A bad poll needs a spawn caught between reservation and write *)
Lemma bug_window s l s' : EInv zero tasks s -> step s l = Some s' -> ebug s' = true ->
  exists c t ts r, dp s = DChk t ts /\ l = LDisp r /\ in_window s c t /\ pending s t = true.
Proof.
  intros HE Hs Hb'. unfold xstep in Hs. destruct (ebug s) eqn:Eb; [discriminate|]. destruct l as [c t v|c t|c| | |r].
  - destruct (ctx s c); try discriminate. destruct (in_dec Nat.eq_dec t tasks); [|discriminate]. injection Hs as <-.
    unfold do_spawn in Hb'. destruct (running s t); simpl in *; congruence.
  - destruct (ctx s c); try discriminate. destruct (in_dec Nat.eq_dec t tasks); [|discriminate]. injection Hs as <-. simpl in *. congruence.
  - unfold ctx_step in Hs. destruct (ctx s c); try discriminate; injection Hs as <-; simpl in *; congruence.
  - destruct (dp s); try discriminate. destruct (zero || irq s)%bool; [|discriminate]. injection Hs as <-. simpl in *. congruence.
  - destruct (dp s); try discriminate. destruct (negb zero && irq s)%bool; [|discriminate]. injection Hs as <-. simpl in *. congruence.
  - unfold disp_step in Hs. destruct (dp s) as [|tsE|[|t ts]|t ts|t ts|t ts] eqn:Ed; try discriminate.
    + injection Hs as <-. simpl in *. congruence.
    + injection Hs as <-. simpl in *. congruence.
    + injection Hs as <-. simpl in *. congruence.
    + assert (Hrt : running s t = true) by (apply (E_work HE); now rewrite Ed).
      assert (Hw : (forall id v, slot s t <> FLive id v) -> exists c, in_window s c t).
      { intros X. destruct (E_live HE _ Hrt) as [Y|[(i & x & Y)|(ts' & i & Y & _)]]; [exact Y|elim (X _ _ Y)|congruence]. }
      destruct (pending s t) eqn:Ep; [destruct (slot s t) as [|id v|id] eqn:Es|]; injection Hs as <-; simpl in *; try congruence.
      * destruct Hw as [c Hw]; [discriminate|]. exists c, t, ts, r. auto.
      * destruct Hw as [c Hw]; [discriminate|]. exists c, t, ts, r. auto.
    + destruct r; [destruct (slot s t); try discriminate|]; injection Hs as <-; simpl in *; congruence.
    + destruct (slot s t); try discriminate. injection Hs as <-. simpl in *; congruence.
Qed.

(** *** The history determines which instance is alive *)
Lemma lives_fun t l o : @lives V t l o -> forall o', lives t l o' -> o = o'.
Proof.
  intros H. induction H as [|l id v H IH|l c v id x H IH|l id v H IH|l id v H IH|l o e He H IH]; intros o' H';
    inversion H' as [E|? ? ? G E|? ? ? ? ? G E|? ? ? G E|? ? ? G E|? ? ? Ge G E]; subst;
    try (apply app_eq_nil in E as [_ E]; discriminate);
    try (symmetry in E; apply app_eq_nil in E as [_ E]; discriminate);
    try reflexivity;
    apply app_inj_tail in E as [-> E]; subst; try discriminate;
    try (injection E as -> ->); try (injection E as ->); auto;
    try (simpl in *; congruence);
    try (specialize (IH _ G); congruence).
  all: try (simpl in *; tauto).
Qed.
End Progress.
