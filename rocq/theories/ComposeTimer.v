(** The timer queue of TimerQueueModel.v as a component: its futures are the delays. *)
From Verif Require Import Base LTS TicksModel TimerListSpec TimerQueueModel TimerQueueProofs ComposeModel ComposeProofs ComposeChannel.
Open Scope Z_scope.
Set Implicit Arguments.

Section Tim.
Context (w slack c0 : Z) (Hw : 1 <= w).
Implicit Types s : tq.

(** timer_queue.rs 229-241: the waker goes into the link at the first poll that has to wait *)
Definition tim_owner s (i : nat) : option nat :=
  match f_pc (futs s i) with
  | DIns wk => Some wk
  | DPend | DPending => Some (f_waker (futs s i))
  | _ => None
  end.
Definition tim_mid s (i : nat) : bool := match f_pc (futs s i) with DIns _ | DPend => true | _ => false end.
Definition tim_woken s (i : nat) : bool := existsb (Nat.eqb i) (log_ids s).
Definition tim_wakes s (l : tlabel) : list nat :=
  match tq_step w slack s l with
  | Some s' => map (fun e => snd (fst e)) (skipn (length (log s)) (log s'))
  | None => []
  end.
Definition tim_start (l : tlabel) : option (nat * nat) := match l with Poll i wk => Some (i, wk) | _ => None end.

Definition tim_comp : component tq tlabel nat :=
  mkComp Nat.eq_dec (tq_init c0) (tq_step w slack) (@guard w) tim_start tim_owner tim_mid tim_woken tim_wakes.

Lemma tim_woken_iff s i : tim_woken s i = true <-> In i (log_ids s).
Proof.
  unfold tim_woken. rewrite existsb_exists. split; [intros (x & H & E); apply Nat.eqb_eq in E as ->; exact H|]. intros H. exists i. split; [exact H|apply Nat.eqb_refl].
Qed.

Ltac crush Hs := repeat match type of Hs with
  | context [match ?x with _ => _ end] => destruct x eqn:?; try discriminate
  end.

(** The waker the handler is about to call is the one in the link. *)
Lemma wake_current s : safe_reach w slack c0 s -> forall i wk, handler s = HWake i wk -> f_waker (futs s i) = wk.
Proof.
  intros Hr. enough (safe_reach w slack c0 s /\ forall i wk, handler s = HWake i wk -> f_waker (futs s i) = wk) by tauto. revert s Hr.
  refine (@greach_inv _ _ (tq_step w slack) (@guard w) _ _ _ _).
  - split; [apply greach_refl|discriminate].
  - intros s l s' [Hr IH] HG Hs. split; [eapply greach_snoc; eauto|]. pose proof (InvA_reach Hw Hr) as HA. pose proof (InvL_reach Hw Hr) as HL.
    intros i wk Hh.
    assert (Hpop : forall i wk, handler s = HWake i wk -> f_popped (futs s i) = true /\ f_link (futs s i) = true).
    { intros i0 k0 E. destruct (L_wake HL E) as (_ & X & _). split; [exact X|]. now apply (A_poplink HA). }
    destruct l as [|k T|k wk'|k|k|k|k| | | | | |c| |]; cbn [tq_step] in Hs.
    + injection Hs as <-. simpl in *. auto.
    + crush Hs. injection Hs as <-. simpl in *. unfold upd. destruct (Nat.eqb_spec i k) as [-> |]; [|auto]. exfalso.
      destruct (Hpop _ _ Hh) as [_ X]. rewrite (A_pre HA k) in X; [discriminate|]. left. assumption.
    + crush Hs; injection Hs as <-; simpl in *; unfold upd; (destruct (Nat.eqb_spec i k) as [-> |]; [|auto]); simpl; auto.
    + crush Hs; injection Hs as <-; simpl in *; unfold upd; (destruct (Nat.eqb_spec i k) as [-> |]; [|auto]); exfalso;
        (destruct (Hpop _ _ Hh) as [_ X]; rewrite (A_pre HA k) in X; [discriminate|]; right; right; eauto).
    + crush Hs; injection Hs as <-; simpl in *; unfold upd; (destruct (Nat.eqb_spec i k) as [-> |]; [|auto]); simpl; auto.
    + crush Hs; injection Hs as <-; simpl in *; unfold upd; (destruct (Nat.eqb_spec i k) as [-> |]; [|auto]); simpl; auto.
    + crush Hs; injection Hs as <-; simpl in *; unfold upd; (destruct (Nat.eqb_spec i k) as [-> |]; [|auto]); simpl; auto.
    + crush Hs; injection Hs as <-; simpl in *; discriminate.
    + crush Hs; injection Hs as <-; simpl in *; discriminate.
    + crush Hs; injection Hs as <-; simpl in *; try discriminate. injection Hh as <- <-. rewrite upd_same. reflexivity.
    + crush Hs; injection Hs as <-; simpl in *; discriminate.
    + crush Hs; injection Hs as <-; simpl in *; discriminate.
    + crush Hs; injection Hs as <-; simpl in *; discriminate.
    + crush Hs; injection Hs as <-; simpl in *; discriminate.
    + crush Hs; injection Hs as <-; simpl in *; discriminate.
Qed.

(** What a step does to the owner of a delay and to the log of wakes. *)
Lemma delay_own s l s' i t : InvA s -> tq_step w slack s l = Some s' -> tim_owner s' i = Some t -> tim_owner s i = Some t \/ l = Poll i t.
Proof.
  intros HA Hs Ho. unfold tim_owner in *. destruct l as [|k T|k wk'|k|k|k|k| | | | | |c| |]; cbn [tq_step] in Hs;
    try (crush Hs; injection Hs as <-; simpl in *; auto; fail).
  - crush Hs. injection Hs as <-. simpl in *. unfold upd in Ho. destruct (Nat.eqb_spec i k) as [-> |]; [discriminate|auto].
  - destruct (f_pc (futs s k)) eqn:Ep; try discriminate; crush Hs; injection Hs as <-; simpl in *; unfold upd in Ho;
      (destruct (Nat.eqb_spec i k) as [-> |]; [|auto]); simpl in Ho; try discriminate; rewrite ?Ep; auto; try (injection Ho as ->; auto; fail).
    rewrite (A_pre HA k) in Heqb0; [discriminate|]. right. now left.
  - destruct (f_pc (futs s k)) eqn:Ep; try discriminate. injection Hs as <-. simpl in *. unfold upd in Ho.
    destruct (Nat.eqb_spec i k) as [-> |]; [|auto]. simpl in Ho. rewrite Ep. left. destruct (ins (dl_lt w) k (f_T (futs s k)) (queue s)) as [|[? ?] ?]; [auto|].
    destruct (Nat.eqb n k); auto.
  - destruct (f_pc (futs s k)) eqn:Ep; try discriminate. injection Hs as <-. simpl in *. unfold upd in Ho.
    destruct (Nat.eqb_spec i k) as [-> |]; [|auto]. simpl in Ho. rewrite Ep. auto.
  - destruct (f_pc (futs s k)) eqn:Ep; try discriminate; crush Hs; injection Hs as <-; simpl in *; unfold upd in Ho;
      (destruct (Nat.eqb_spec i k) as [-> |]; [|auto]); discriminate.
  - destruct (f_pc (futs s k)) eqn:Ep; try discriminate; crush Hs; injection Hs as <-; simpl in *; unfold upd in Ho;
      (destruct (Nat.eqb_spec i k) as [-> |]; [|auto]); discriminate.
  - crush Hs; injection Hs as <-; simpl in *; auto; unfold upd in Ho; (destruct (Nat.eqb_spec i n) as [-> |]; auto).
Qed.

Lemma delay_log s l s' : tq_step w slack s l = Some s' -> log s' = log s \/ exists i wk, l = HWakeL /\ handler s = HWake i wk /\ log s' = log s ++ [(i, wk, clock s)] /\ futs s' = futs s.
Proof.
  intros Hs. destruct l as [|k T|k wk'|k|k|k|k| | | | | |c| |]; cbn [tq_step] in Hs; try (left; crush Hs; injection Hs as <-; reflexivity).
  crush Hs. injection Hs as <-. right. eauto 8.
Qed.

Lemma tim_contract : contract tim_comp.
Proof.
  constructor.
  - intros j. reflexivity.
  - intros s l s' j t Hr _ Hs Ho; simpl in *. change (kreach tim_comp s) with (safe_reach w slack c0 s) in Hr. destruct (@delay_own s l s' j t (InvA_reach Hw Hr) Hs Ho) as [X| ->]; auto.
  - intros s l s' j t Hr HG Hs Ho Hwk; cbn [tim_comp c_owner c_woken c_wakes c_start c_guard c_step] in *.
    change (kreach tim_comp s) with (safe_reach w slack c0 s) in Hr. apply tim_woken_iff in Hwk. unfold log_ids in Hwk.
    destruct (@delay_log s l s' Hs) as [E|(i & wk & -> & Eh & E & Ef)]; rewrite E in Hwk.
    + assert (Hp : f_popped (futs s j) = true) by (apply (L_popped (InvL_reach Hw Hr)); exact Hwk).
      pose proof (A_late (InvA_reach Hw Hr) j Hp) as Hl. pose proof (A_poplink (InvA_reach Hw Hr) j Hp) as Hlk.
      right. assert (Hn : forall k, l <> Poll j k).
      { intros k ->. cbn [tq_step] in Hs.
        assert (Hd : f_pc (futs s j) <> DNone -> f_pc (futs s j) <> DDropped -> due w (clock s) (f_T (futs s j)) = true).
        { intros D1 D2. rewrite (due_window Hw j HG D1 D2). now apply Z.leb_le. }
        unfold tim_owner in Ho. destruct (f_pc (futs s j)) eqn:Ep; try discriminate; rewrite Hd in Hs by discriminate;
          injection Hs as <-; simpl in Ho; rewrite upd_same in Ho; discriminate. }
      destruct (@delay_own s l s' j t (InvA_reach Hw Hr) Hs Ho) as [X|X]; [|exfalso; eapply Hn; exact X]. split; [exact X|]. split; [now apply tim_woken_iff|].
      intros k Hk. destruct l; try discriminate. injection Hk as -> ->. eapply Hn. reflexivity.
    + rewrite map_app, in_app_iff in Hwk. unfold tim_owner in *. rewrite Ef in Ho. destruct Hwk as [Hwk|[<-|[]]].
      * right. split; [exact Ho|]. split; [now apply tim_woken_iff|discriminate].
      * left. unfold tim_wakes. rewrite Hs, E, skipn_log. simpl. left. cbn [fst snd] in Ho. rewrite (wake_current Hr Eh) in Ho.
        assert (Hp : f_popped (futs s i) = true) by (apply (L_wake (InvL_reach Hw Hr) Eh)).
        pose proof (A_poplink (InvA_reach Hw Hr) i Hp) as Hlk.
        destruct (f_pc (futs s i)) eqn:Ep; try discriminate; [|congruence|congruence].
        exfalso. rewrite (A_pre (InvA_reach Hw Hr) i) in Hlk; [discriminate|]. right. right. eauto.
Qed.
End Tim.
