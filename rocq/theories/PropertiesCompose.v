(** C63: the executor and the things its tasks await, together. *)
From Verif Require Import Base LTS ExecModel ExecSpec ComposeModel ComposeProofs ComposeChannel ComposeArbiter ComposeSignal ComposeTimer ComposeSpec.
From Verif Require ChannelModel ChannelSpec ChannelInv ChannelTrace ChannelProofs ChannelFinal ArbiterModel ArbiterSpec ArbiterProofs SignalModel SignalSpec SignalProofs
  TimerQueueModel TimerQueueProofs.
Open Scope Z_scope.
Set Implicit Arguments.

Section World.
Context {VC VA VS VW : Type} (cap : nat -> nat) (a0 : nat -> VA) (w slack c0 : Z) (Hw : 1 <= w).
Context {V : Type} (zero : bool) (tasks : list nat).
Notation WORLD := (@world VC VA VS VW cap a0 w slack c0).
Notation reachable := (@yreach V _ _ _ zero tasks WORLD).
Notation state y := (y_c y : @world_state VC VA VS VW).

Lemma world_contract : contract WORLD.
Proof.
  apply beside_contract; [apply many_contract; intros; apply chan_contract|].
  apply beside_contract; [apply many_contract; intros; apply arb_contract|].
  apply beside_contract; [apply many_contract; intros; apply sig_contract|].
  apply beside_contract; [apply many_contract; intros; apply sig_contract|].
  now apply tim_contract.
Qed.

Lemma world_parts s : kreach WORLD s ->
  (forall i, ChannelModel.creach (cap i) (w_chan s i)) /\ (forall i, ArbiterSpec.areach (a0 i) (w_arb s i)) /\
  (forall i, SignalSpec.sreach SignalModel.KSignal (w_sig s i)) /\ (forall i, SignalSpec.sreach SignalModel.KWatch (w_watch s i)) /\
  TimerQueueProofs.safe_reach w slack c0 (w_timer s).
Proof.
  intros H. apply beside_reach in H as [H1 H]. apply beside_reach in H as [H2 H]. apply beside_reach in H as [H3 H]. apply beside_reach in H as [H4 H5].
  split; [intros i; apply chan_kreach; exact (many_reach H1 i)|]. split; [intros i; apply arb_kreach; exact (many_reach H2 i)|].
  split; [intros i; apply sig_kreach; exact (many_reach H3 i)|]. split; [intros i; apply sig_kreach; exact (many_reach H4 i)|]. exact H5.
Qed.

(** When it has happened, the task's waker has been called. *)
Lemma happened_woken s t : kreach WORLD s -> happened slack s t -> exists j, c_owner WORLD s j = Some t /\ c_woken WORLD s j = true.
Proof.
  intros Hr Hh. destruct (world_parts Hr) as (HC & HA & HS & HWt & HT). destruct Hh as [i E Hv Hq|i j v E Ew Hv|i j E El Ew Hv|i j E Hv Hq|i j E Hv Hsn Hq|i E Ew Hv Hi H1 H2 H3].
  - exists (inl (i, None)). change (fst s) with (w_chan s). simpl. change (fst s) with (w_chan s). rewrite E. split; [reflexivity|].
    exact (@ChannelFinal.receiver_woken VC (cap i) _ _ (HC i) E Hv Hq).
  - exists (inl (i, Some j)). simpl. change (fst s) with (w_chan s). rewrite E, Ew. split; [reflexivity|].
    pose proof (ChannelProofs.A_L (ChannelProofs.InvAll_reach (HC i))) as HL.
    destruct (ChannelModel.h_link (ChannelModel.hs (w_chan s i) j)) eqn:Elk; [| |reflexivity]; exfalso.
    + pose proof (ChannelInv.L_h HL j) as Hk. unfold ChannelInv.hok in Hk. rewrite E, Elk in Hk. intuition congruence.
    + apply (ChannelInv.L_in HL) in Elk. destruct Hv as [Hv|[Hv|Hv]]; [|eapply ChannelFinal.dead_released; eauto|auto].
      apply Hv. apply (ChannelInv.L_free HL). intros X. rewrite X in Elk. destruct Elk.
  - exists (inr (inl (i, j))). simpl. change (fst (snd s)) with (w_arb s). unfold arb_owner, arb_woken. rewrite E.
    pose proof (ArbiterProofs.AInv_reach (HA i)) as HI.
    destruct (ArbiterModel.a_link (ArbiterModel.cl (w_arb s i) j)) eqn:Elk; [congruence| |rewrite Ew; auto].
    exfalso. apply (ArbiterProofs.I_in HI) in Elk. destruct Hv as [Hv|Hv]; [|auto]. apply (ArbiterProofs.I_free HI) in Hv as [X _]. rewrite X in Elk. destruct Elk.
  - exists (inr (inr (inl (i, j)))). simpl. change (fst (snd (snd s))) with (w_sig s). unfold sig_owner. rewrite E. split; [reflexivity|].
    destruct (SignalProofs.B_av (SignalProofs.Inv3_reach (HS i)) j E Hv) as [X|[k X]]; [exact X|rewrite Hq in X; discriminate].
  - exists (inr (inr (inr (inl (i, j))))). simpl. change (fst (snd (snd (snd s)))) with (w_watch s). unfold sig_owner. rewrite E. split; [reflexivity|].
    destruct (SignalProofs.B_av (SignalProofs.Inv3_reach (HWt i)) j E (conj Hv Hsn)) as [X|[k X]]; [exact X|rewrite Hq in X; discriminate].
  - exists (inr (inr (inr (inr i)))). simpl. change (snd (snd (snd (snd s)))) with (w_timer s). unfold tim_owner. rewrite E, Ew. split; [reflexivity|].
    apply tim_woken_iff. pose proof (TimerQueueProofs.InvA_reach Hw HT) as HI. pose proof (TimerQueueProofs.InvL_reach Hw HT) as HL.
    destruct (TimerQueueModel.f_popped (TimerQueueModel.futs (w_timer s) i)) eqn:Ep.
    + destruct (TimerQueueProofs.L_all HL i Ep) as [X|[k X]]; [exact X|congruence].
    + exfalso. destruct (TimerQueueModel.f_link (TimerQueueModel.futs (w_timer s) i)) eqn:El.
      * assert (Hin : In (i, TimerQueueModel.f_T (TimerQueueModel.futs (w_timer s) i)) (TimerQueueModel.queue (w_timer s))) by (apply (TimerQueueProofs.A_link HI); congruence).
        destruct (@TimerQueueProofs.no_missed_deadline w slack Hw c0 _ i _ HT Hi Hin Hv) as [X|[X|[k X]]]; [congruence|congruence|now apply (H3 k)].
      * rewrite (@TimerQueueProofs.pending_link w slack c0 _ HT i) in El; [discriminate|]. now left.
Qed.

(** * C63 No task stays suspended although what it waits for has happened *)
(** Once it has happened, the suspended task is alive and will be polled: its waker is about to be called, or it is
    marked for polling with its dispatcher pended or on its way to it; or it is being polled right now and has still
    to look at what it waits for. *)
Theorem C63_suspended_task_is_polled_again :
  forall y t, reachable y -> ebug (y_e y) = false -> In t tasks -> happened slack (state y) t ->
  running (y_e y) t = true /\
  (In t (y_todo y) \/
   (pending (y_e y) t = true /\ (zero = true \/ irq (y_e y) = true \/ In t (ahead (dp (y_e y))) \/ exists c, busy_with (y_e y) c t)) \/
   exists ts, dp (y_e y) = DIn t ts).
Proof.
  intros y t Hy Hb Ht Hh. destruct (happened_woken (y_comp Hy) Hh) as (j & Ho & Hk).
  destruct (@woken_due V _ _ _ zero tasks _ world_contract y j t Hy Hb Ho Ht Hk) as [X [Y|[Y|[_ Y]]]]; auto.
Qed.

(** When everything has come to rest (no waker call, spawn, interrupt or poll is under way), no task is
    suspended although what it waits for has happened. *)
Theorem C63_at_rest_nothing_is_missed :
  forall y t, reachable y -> ebug (y_e y) = false -> zero = false -> at_rest y -> In t tasks -> ~ happened slack (state y) t.
Proof.
  intros y t Hy Hb Hz Ha Ht Hh. destruct (happened_woken (y_comp Hy) Hh) as (j & Ho & Hk).
  rewrite (@rest_none_woken V _ _ _ zero tasks _ world_contract y j t Hy Hb Hz Ha Ho Ht) in Hk. discriminate.
Qed.

(** A poll that ends Pending leaves no such task behind unmarked, even when it happens during the poll. *)
Theorem C63_woken_during_poll_is_marked :
  forall y y' t ts, reachable y -> yguard WORLD y (YExec (LDisp false)) -> ystep zero tasks WORLD y (YExec (LDisp false)) = Some y' -> dp (y_e y) = DIn t ts ->
  ebug (y_e y') = false -> In t tasks -> happened slack (state y') t ->
  In t (y_todo y') \/ pending (y_e y') t = true.
Proof.
  intros y y' t ts Hy HG Hs Hd Hb Ht Hh. assert (Hy' : reachable y') by (eapply greach_snoc; eauto).
  destruct (C63_suspended_task_is_polled_again Hy' Hb Ht Hh) as [_ [X|[[X _]|[ts' X]]]]; auto. exfalso.
  simpl in Hs. destruct (xstep zero tasks (y_e y) (LDisp false)) as [e'|] eqn:E; [|discriminate]. injection Hs as <-.
  destruct (@x_in_false V zero tasks _ _ _ _ E Hd) as (_ & _ & F). simpl in X. congruence.
Qed.
End World.

Print Assumptions C63_suspended_task_is_polled_again.
Print Assumptions C63_at_rest_nothing_is_missed.
Print Assumptions C63_woken_during_poll_is_marked.

(** * Concrete cases.  Tasks 1 and 2; task 1 is spawned, receives from channel 0 and goes to sleep; handle 0 sends 7;
    then the waker runs, the dispatcher polls task 1, which receives 7 and waits again. *)
Notation W1 := (@world nat nat nat nat (fun _ => 1%nat) (fun _ => 0%nat) 8 1 0).
Definition wlabel : Type := (nat * ChannelModel.label nat + (nat * @ArbiterModel.alabel nat + (nat * @SignalModel.slabel nat + (nat * @SignalModel.slabel nat + TimerQueueModel.tlabel))))%type.
Definition xx (l : @xlabel nat) : @ylabel nat wlabel := YExec l.
Definition cch (l : ChannelModel.label nat) : @ylabel nat wlabel := YComp (inl (0%nat, l)).
Definition part1 : list (@ylabel nat wlabel) := [xx (LSpawn 0 1 10%nat); xx (LCtx 0); xx (LCtx 0); xx (LCtx 0); xx LDispatch; xx (LDisp false); xx (LDisp false)]
  ++ [cch (ChannelModel.LSplit); cch (ChannelModel.LRecv 1)] ++ repeat (cch ChannelModel.LRStep) 3 ++ [xx (LDisp false); xx (LDisp false); xx (LDisp false)]
  ++ [cch (ChannelModel.LTry 0 7%nat)] ++ repeat (cch (ChannelModel.LStep 0)) 5.
Definition part2 : list (@ylabel nat wlabel) := [YWake 5 1; xx (LCtx 5); xx LDispatch; xx (LDisp false); xx (LDisp false)]
  ++ [cch (ChannelModel.LRecv 1)] ++ repeat (cch ChannelModel.LRStep) 4 ++ [cch (ChannelModel.LRecv 1)] ++ repeat (cch ChannelModel.LRStep) 3
  ++ [xx (LDisp false); xx (LDisp false); xx (LDisp false)].

Ltac guard_tac := match goal with
  | |- True => exact I
  | |- _ => let t := fresh in let ts := fresh in let H := fresh in intros t ts H;
      first [discriminate H
            |injection H as <- <-; intros [[[|?i] [[|?k]|]]|[[?i ?k]|[[?i ?k]|[[?i ?k]|?i]]]] Ho; try discriminate Ho; auto]
  end.

(** The value is there while task 1 sleeps: its waker call is pending. *)
Example C63_case : exists y,
  @yreach nat _ _ _ false [1%nat; 2%nat] W1 y /\ ebug (y_e y) = false /\ happened 1 (y_c y : @world_state nat nat nat nat) 1 /\ y_todo y = [1%nat].
Proof.
  destruct (run (ystep false [1%nat; 2%nat] W1) (y_init W1) part1) as [y|] eqn:E; [|vm_compute in E; discriminate].
  exists y. split.
  - exists part1. split; [|exact E]. clear E y. vm_compute. repeat (split; [guard_tac|]). exact I.
  - vm_compute in E. injection E as <-. split; [reflexivity|]. split; [|reflexivity].
    eapply (@hp_recv nat nat nat nat 1 _ 1%nat 0%nat); [reflexivity|left; discriminate|]. intros [|j]; reflexivity.
Qed.

(** ... and afterwards it has been received and everything is at rest again. *)
Example C63_case_at_rest : exists y,
  @yreach nat _ _ _ false [1%nat; 2%nat] W1 y /\ ebug (y_e y) = false /\ at_rest y /\ running (y_e y) 1 = true /\
  ChannelModel.recvs (ChannelModel.log (w_chan (y_c y : @world_state nat nat nat nat) 0)) = [7%nat] /\
  ChannelModel.recv (w_chan (y_c y : @world_state nat nat nat nat) 0) = ChannelModel.RSleep 1.
Proof.
  destruct (run (ystep false [1%nat; 2%nat] W1) (y_init W1) (part1 ++ part2)) as [y|] eqn:E; [|vm_compute in E; discriminate].
  exists y. split.
  - exists (part1 ++ part2). split; [|exact E]. clear E y. vm_compute. repeat (split; [guard_tac|]). exact I.
  - vm_compute in E. injection E as <-. split; [reflexivity|]. split; [|repeat split].
    split; [reflexivity|]. split; [reflexivity|]. split; [|reflexivity]. intros c. vm_compute. destruct c as [|[|[|[|[|[|c]]]]]]; reflexivity.
Qed.
