(** Proofs about a monotonic before its [start] (UnstartedModel.v). *)
From Verif Require Import Base LTS TicksModel TimerListSpec TimerQueueModel TimerQueueProofs UnstartedModel.
Open Scope Z_scope.
Set Implicit Arguments.

Section Proofs.
Context (w slack : Z) (Hw : 1 <= w).
Notation qstep := (tq_step w slack).
Notation ustep := (u_step w slack).

Definition u_reach (c0 : Z) (s : unst) : Prop := greach ustep (@u_guard w) (u_init c0) s.

(** every step is a step of the queue or leaves the queue alone *)
Lemma u_step_q s l s' : ustep s l = Some s' ->
  u_q s' = u_q s \/ exists l0, qstep (u_q s) l0 = Some (u_q s') /\ (u_on s = false -> l0 <> Tick).
Proof.
  assert (K : forall l0 b p, option_map (fun q => mkU q b p) (qstep (u_q s) l0) = Some s' ->
              (u_on s = false -> l0 <> Tick) -> exists l0, qstep (u_q s) l0 = Some (u_q s') /\ (u_on s = false -> l0 <> Tick)).
  { intros l0 b p H Hn. exists l0. destruct (qstep (u_q s) l0); [|discriminate]. injection H as <-. auto. }
  unfold u_step. destruct l as [|i T|i T|l].
  - intros H. injection H as <-. now left.
  - destruct (u_on s) eqn:Eo; [|intros H; injection H as <-; now left].
    intros H. right. eapply K; [exact H|discriminate].
  - intros H. right. eapply K; [exact H|discriminate].
  - intros H. right. destruct l; try discriminate;
      try (eapply K; [exact H|discriminate]).
    destruct (u_on s) eqn:Eo; [|discriminate]. eapply K; [exact H|discriminate].
Qed.

Lemma q_clock s l s' : qstep s l = Some s' -> l <> Tick -> clock s' = clock s.
Proof.
  intros H Hn. destruct l; try contradiction; simpl in H;
    repeat match type of H with
    | context [match ?x with _ => _ end] => destruct x; try discriminate
    end; injection H as <-; reflexivity.
Qed.

Lemma q_fut s l s' i : qstep s l = Some s' -> f_pc (futs s i) <> DNone ->
  f_T (futs s' i) = f_T (futs s i) /\ f_pc (futs s' i) <> DNone.
Proof.
  intros H Hn.
  assert (U : forall (g : nat -> fut) j f, g j = futs s j \/ g = futs s -> f_pc f <> DNone -> f_T f = f_T (futs s j) ->
              g = futs s -> f_T (upd g j f i) = f_T (futs s i) /\ f_pc (upd g j f i) <> DNone).
  { intros g j f _ H1 H2 ->. unfold upd. destruct (Nat.eqb_spec i j) as [->|]; auto. }
  destruct l; simpl in H;
    repeat match type of H with
    | context [match ?x with _ => _ end] => let E := fresh "E" in destruct x eqn:E; try discriminate
    end; injection H as <-; simpl; auto;
    try (apply U; simpl; auto; try discriminate; fail).
  - unfold upd. destruct (Nat.eqb_spec i i0) as [->|]; [congruence|auto].
  - unfold upd. destruct (Nat.eqb_spec i n) as [->|]; simpl; auto.
  - unfold upd. destruct (Nat.eqb_spec i n) as [->|]; simpl; auto.
Qed.

(** before [start] nothing but a wake adds to the log, at the standing clock *)
Lemma q_log s l s' i k t : qstep s l = Some s' -> In (i, k, t) (log s') -> In (i, k, t) (log s) \/ t = clock s.
Proof.
  intros H. destruct l; simpl in H;
    repeat match type of H with
    | context [match ?x with _ => _ end] => let E := fresh "E" in destruct x eqn:E; try discriminate
    end; injection H as <-; simpl; auto.
  intros Hin. apply in_app_or in Hin as [|[Heq|[]]]; [auto|]. injection Heq as _ _ <-. auto.
Qed.

Lemma u_on_mono s l s' : ustep s l = Some s' -> u_on s = true -> u_on s' = true.
Proof.
  intros H Ho. unfold u_step in H. rewrite Ho in H.
  destruct l as [|i T|i T|l]; [injection H as <-; reflexivity| | |].
  1,2: destruct (qstep (u_q s) (Create i T)); [injection H as <-; auto|discriminate].
  destruct l; try discriminate;
    match type of H with option_map _ ?x = _ => destruct x; [injection H as <-; auto|discriminate] end.
Qed.

Lemma u_off_only_start s l s' : ustep s l = Some s' -> u_on s = false -> l <> UStart -> u_on s' = false.
Proof.
  intros H Ho Hl. unfold u_step in H. rewrite Ho in H.
  destruct l as [|i T|i T|l]; [contradiction|injection H as <-; reflexivity| |].
  - destruct (qstep (u_q s) (Create i T)); [injection H as <-; auto|discriminate].
  - destruct l; try discriminate;
    match type of H with option_map _ ?x = _ => destruct x; [injection H as <-; auto|discriminate] end.
Qed.

Lemma greach_snoc_q c0 q l q' : safe_reach w slack c0 q -> in_window w q -> qstep q l = Some q' ->
  safe_reach w slack c0 q'.
Proof.
  intros [ls [G R]] HW Hs. exists (ls ++ [l]). split; [|eapply run_snoc; eauto].
  revert G R. generalize (tq_init c0). induction ls as [|l0 ls IH]; simpl; intros s0 G R.
  - injection R as ->. rewrite Hs. split; [exact HW|exact I].
  - destruct G as [G1 G2]. split; [exact G1|]. destruct (qstep s0 l0); [|discriminate]. apply IH; auto.
Qed.

(** * what holds in every execution *)
Record UInv (c0 : Z) (s : unst) : Prop := {
  U_safe : safe_reach w slack c0 (u_q s);
  U_clock : u_on s = false -> clock (u_q s) = c0;
  U_log : u_on s = false -> forall i k t, In (i, k, t) (log (u_q s)) -> t = c0;
  U_ready : u_on s = false -> forall i, f_pc (futs (u_q s) i) = DReady -> f_T (futs (u_q s) i) <= c0
}.

Lemma UInv_step c0 s l s' : UInv c0 s -> in_window w (u_q s) -> ustep s l = Some s' -> UInv c0 s'.
Proof.
  intros [S C L D] HW Hs. 
  assert (Hoff : u_on s' = false -> u_on s = false).
  { intros H. destruct (u_on s) eqn:E; [|reflexivity]. rewrite (u_on_mono _ _ Hs E) in H. discriminate. }
  destruct (u_step_q _ _ Hs) as [Eq|(l0 & Hq & Ht)].
  - constructor; rewrite Eq; auto. intros H; apply Hoff in H; eauto.
  - constructor.
    + eapply greach_snoc_q; eauto.
    + intros H. apply Hoff in H. rewrite (q_clock _ Hq (Ht H)). auto.
    + intros H i k t Hin. apply Hoff in H. destruct (q_log _ _ _ _ _ Hq Hin) as [Hin'|Ht']; [eauto|].
      rewrite Ht'. auto.
    + intros H i Hi. apply Hoff in H.
      destruct (f_pc (futs (u_q s) i)) eqn:Ep.
      6: { destruct (q_fut _ _ i Hq) as [-> _]; [congruence|]. auto. }
      all: assert (Hn : f_pc (futs (u_q s) i) <> DReady) by congruence.
      all: pose proof (ready_not_early Hw _ _ S HW Hq Hn Hi) as Hle; rewrite (C H) in Hle.
      2-7: destruct (q_fut _ _ i Hq) as [-> _]; [congruence|lia].
      exfalso. clear - Hq Hi Ep. revert Hq Hi. generalize (u_q s'). intros q1 Hq Hi. destruct l0; simpl in Hq;
        repeat match type of Hq with
        | context [match ?x with _ => _ end] => let E := fresh "E" in destruct x eqn:E; try discriminate
        end; injection Hq as <-; simpl in Hi; unfold upd in Hi;
        repeat match type of Hi with
        | context [Nat.eqb ?a ?b] => destruct (Nat.eqb_spec a b); simpl in Hi
        end; subst; congruence.
Qed.

Lemma UInv_reach c0 s : u_reach c0 s -> UInv c0 s.
Proof.
  refine (@greach_inv _ _ ustep (@u_guard w) (UInv c0) (u_init c0) _ _ s).
  - constructor; simpl; try tauto; try discriminate. exists []. split; [exact I|reflexivity].
  - intros s0 l s1 HI HG Hs. eapply UInv_step; eauto.
Qed.

(** the panics: exactly the delays asked for before [start] *)
Lemma delay_off s i T : u_on s = false ->
  ustep s (UDelay i T) = Some (mkU (u_q s) false (u_panics s ++ [i])).
Proof. intros H. unfold u_step. now rewrite H. Qed.

Lemma panics_only s l s' : ustep s l = Some s' -> u_panics s' <> u_panics s ->
  u_on s = false /\ exists i T, l = UDelay i T.
Proof.
  intros H Hp. unfold u_step in H. destruct l as [|i T|i T|l].
  - injection H as <-. now elim Hp.
  - destruct (u_on s); [|eauto]. destruct (qstep (u_q s) (Create i T)); [injection H as <-; now elim Hp|discriminate].
  - destruct (qstep (u_q s) (Create i T)); [injection H as <-; now elim Hp|discriminate].
  - exfalso. destruct l; try discriminate; try destruct (u_on s); try discriminate;
    match type of H with option_map _ ?x = _ => destruct x; [injection H as <-; now elim Hp|discriminate] end.
Qed.

(** a timeout made before [start] sleeps on *)
Lemma timeout_sleeps c0 s i : u_reach c0 s -> u_on s = false ->
  f_pc (futs (u_q s) i) <> DNone -> clock (u_q s) < f_T (futs (u_q s) i) ->
  forall ls s', guarded ustep (@u_guard w) s ls -> Forall (fun l => l <> UStart) ls -> run ustep s ls = Some s' ->
  u_on s' = false /\ clock (u_q s') = clock (u_q s) /\
  f_pc (futs (u_q s') i) <> DReady /\ forall k t, ~ In (i, k, t) (log (u_q s')).
Proof.
  intros R Ho Hp Hlt ls s' G F Hr.
  pose proof (UInv_reach R) as I0. pose proof (U_clock I0 Ho) as Hc.
  assert (K : UInv c0 s' /\ u_on s' = false /\ f_pc (futs (u_q s') i) <> DNone /\
              f_T (futs (u_q s') i) = f_T (futs (u_q s) i)).
  { clear R Hlt Hc. 
    assert (HT : f_T (futs (u_q s) i) = f_T (futs (u_q s) i)) by reflexivity.
    revert HT. generalize (f_T (futs (u_q s) i)) at 2 3. intros T0. intros HT.
    revert s I0 Ho Hp HT G Hr. induction F as [|l ls Hl F IH]; simpl; intros s I0 Ho Hp HT G Hr.
    - injection Hr as ->. auto.
    - destruct G as [G1 G2]. destruct (ustep s l) as [s1|] eqn:E; [|discriminate].
      apply (IH s1); auto.
      + eapply UInv_step; eauto.
      + eapply u_off_only_start; eauto.
      + destruct (u_step_q _ _ E) as [->|(l0 & Hq & _)]; [exact Hp|]. apply (proj2 (q_fut _ _ i Hq Hp)).
      + destruct (u_step_q _ _ E) as [->|(l0 & Hq & _)]; [exact HT|]. rewrite (proj1 (q_fut _ _ i Hq Hp)). exact HT. }
  destruct K as (I1 & Ho1 & Hp1 & HT1).
  split; [exact Ho1|]. split; [rewrite (U_clock I1 Ho1); auto|]. split.
  - intros Hd. pose proof (U_ready I1 Ho1 i Hd). lia.
  - intros k t Hin. pose proof (U_log I1 Ho1 _ _ _ Hin) as Et.
    pose proof (proj2 (woken_once_not_early Hw (U_safe I1)) _ _ _ Hin). lia.
Qed.

(** before [start] a future exists only if a timeout made it *)
Lemma off_made_by_timeout ls : forall s s' i, run ustep s ls = Some s' -> u_on s' = false ->
  f_pc (futs (u_q s) i) = DNone -> f_pc (futs (u_q s') i) <> DNone -> exists T, In (UTimeout i T) ls.
Proof.
  clear Hw. induction ls as [|l ls IH]; simpl; intros s s' i Hr Ho H0 H1; [congruence|].
  destruct (ustep s l) as [s1|] eqn:E; [|discriminate].
  destruct (f_pc (futs (u_q s1) i)) eqn:Ep.
  1: { destruct (IH s1 s' i Hr Ho Ep H1) as [T HT]. eauto. }
  all: assert (Hn : f_pc (futs (u_q s1) i) <> DNone) by congruence; clear Ep.
  all: assert (Hs : u_on s = false)
    by (destruct (u_on s) eqn:Eo; [|reflexivity]; exfalso; pose proof (u_on_mono _ _ E Eo) as E1;
        clear - Hr Ho E1; revert s1 E1 Hr; induction ls as [|l ls IHl]; simpl; intros s1 E1 Hr;
        [injection Hr as ->; congruence|];
        destruct (ustep s1 l) as [s2|] eqn:E2; [|discriminate]; eapply IHl; [exact (u_on_mono _ _ E2 E1)|exact Hr]).
  all: assert (K : exists T, l = UTimeout i T);
    [|destruct K as [T ->]; exists T; now left].
  all: clear - E Hs H0 Hn; unfold u_step in E; rewrite Hs in E;
    destruct l as [|j T|j T|l]; try (injection E as <-; contradiction).
  all: try (simpl in E; destruct (f_pc (futs (u_q s) j)) eqn:Ej; try discriminate; injection E as <-; simpl in Hn;
    unfold upd in Hn; destruct (Nat.eqb_spec i j) as [->|]; [eauto|contradiction]).
  all: exfalso; destruct l; try discriminate; simpl in E;
        repeat match type of E with
        | context [match ?x with _ => _ end] => let E0 := fresh "E" in destruct x eqn:E0; try discriminate
        end; injection E as <-; simpl in Hn; unfold upd in Hn;
        repeat match type of Hn with
        | context [Nat.eqb ?a ?b] => destruct (Nat.eqb_spec a b); simpl in Hn
        end; subst; congruence.
Qed.
End Proofs.
