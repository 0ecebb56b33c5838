(** Property theorems about rtic-sync's Signal (C34) and Watch (C35).
    Vocabulary: SignalSpec.v.  [sreach k s]: [s] is reached from a new Signal / Watch by some schedule of any
    number of writers and reader handles, one critical section or atomic access at a time. *)
From Verif Require Import Base LTS WakerRegModel SignalModel SignalSpec SignalProofs.
Set Implicit Arguments.

Section Sig.
Context {V : Type}.
Implicit Types (s : @sig V) (j w : nat) (k : kind).

(** * C34 Signal *)
(** All reads and writes form a legal history of a one-place mailbox whose content is the stored value: a
    value returned is the newest written one, it was not taken or cleared before, and "no value" is reported
    only when there is none. *)
Theorem C34_is_a_mailbox :
  forall s, sreach KSignal s -> register_history (slog s) (store s).
Proof. intros s. apply Inv2_reach. Qed.

(** A value returned is that of the latest write, with no other read in between. *)
Theorem C34_returns_newest_once :
  forall s j v l1 l2, sreach KSignal s -> slog s = l1 ++ VTake j v :: l2 ->
  exists i m1 m2, l1 = m1 ++ VWrite i v :: m2 /\
    forall e, In e m2 -> match e with VWrite _ _ | VClear _ | VTake _ _ | VEvict _ => False | _ => True end.
Proof.
  intros s j v l1 l2 Hr E.
  assert (P : forall l (o : option V), register_history l o -> forall a b, l = a ++ b -> exists o', register_history a o' /\ (b = [] -> o' = o) /\
     (forall x c, b = VTake j x :: c -> o' = Some x)).
  { clear. intros l o H. induction H as [|l o i v H IH|l o i H IH|l j' v H IH|l j' H IH|l o j' H IH|l o e He H IH]; intros a b Hab.
    - symmetry in Hab. apply app_eq_nil in Hab as [-> ->]. exists None. repeat split; [constructor|discriminate].
    - destruct b as [|x b _] using rev_ind; [rewrite app_nil_r in Hab; subst; exists (Some v); repeat split; [econstructor; eauto|discriminate]|].
      rewrite app_assoc in Hab. apply app_inj_tail in Hab as [Hab <-]. destruct (IH a b Hab) as (o' & Ho & Hn & Ht). exists o'. repeat split; auto.
      + intros X. apply app_eq_nil in X as [_ X]. discriminate.
      + intros y c X. destruct b as [|z b]; [discriminate|]. injection X as -> <-. eapply Ht. reflexivity.
    - destruct b as [|x b _] using rev_ind; [rewrite app_nil_r in Hab; subst; exists None; repeat split; [econstructor; eauto|discriminate]|].
      rewrite app_assoc in Hab. apply app_inj_tail in Hab as [Hab <-]. destruct (IH a b Hab) as (o' & Ho & Hn & Ht). exists o'. repeat split; auto.
      + intros X. apply app_eq_nil in X as [_ X]. discriminate.
      + intros y c X. destruct b as [|z b]; [discriminate|]. injection X as -> <-. eapply Ht. reflexivity.
    - destruct b as [|x b _] using rev_ind; [rewrite app_nil_r in Hab; subst; exists None; repeat split; [econstructor; eauto|discriminate]|].
      rewrite app_assoc in Hab. apply app_inj_tail in Hab as [Hab <-]. destruct (IH a b Hab) as (o' & Ho & Hn & Ht). exists o'. repeat split; auto.
      + intros X. apply app_eq_nil in X as [_ X]. discriminate.
      + intros y c X. destruct b as [|z b]; [injection X as -> -> <-; now apply Hn|]. injection X as -> <-. eapply Ht. reflexivity.
    - destruct b as [|x b _] using rev_ind; [rewrite app_nil_r in Hab; subst; exists None; repeat split; [econstructor; eauto|discriminate]|].
      rewrite app_assoc in Hab. apply app_inj_tail in Hab as [Hab <-]. destruct (IH a b Hab) as (o' & Ho & Hn & Ht). exists o'. repeat split; auto.
      + intros X. apply app_eq_nil in X as [_ X]. discriminate.
      + intros y c X. destruct b as [|z b]; [discriminate|]. injection X as -> <-. eapply Ht. reflexivity.
    - destruct b as [|x b _] using rev_ind; [rewrite app_nil_r in Hab; subst; exists None; repeat split; [econstructor; eauto|discriminate]|].
      rewrite app_assoc in Hab. apply app_inj_tail in Hab as [Hab <-]. destruct (IH a b Hab) as (o' & Ho & Hn & Ht). exists o'. repeat split; auto.
      + intros X. apply app_eq_nil in X as [_ X]. discriminate.
      + intros y c X. destruct b as [|z b]; [discriminate|]. injection X as -> <-. eapply Ht. reflexivity.
    - destruct b as [|x b _] using rev_ind; [rewrite app_nil_r in Hab; subst; exists o; repeat split; [constructor; auto|discriminate]|].
      rewrite app_assoc in Hab. apply app_inj_tail in Hab as [Hab <-]. destruct (IH a b Hab) as (o' & Ho & Hn & Ht). exists o'. repeat split; auto.
      + intros X. apply app_eq_nil in X as [_ X]. discriminate.
      + intros y c X. destruct b as [|z b]; [injection X as -> <-; destruct He|]. injection X as -> <-. eapply Ht. reflexivity. }
  destruct (P _ _ (Inv2_reach Hr) l1 (VTake j v :: l2) E) as (o & Ho & _ & Ht). rewrite (Ht v l2 eq_refl) in Ho. clear -Ho.
  remember (Some v) as o eqn:Eo. revert Eo. induction Ho as [|l o i x H IH|l o i H IH|l j' x H IH|l j' H IH|l o j' H IH|l o e He H IH]; intros Eo; try discriminate.
  - injection Eo as ->. exists i, l, []. split; [reflexivity|intros e []].
  - destruct (IH Eo) as (i & m1 & m2 & -> & Hm). exists i, m1, (m2 ++ [e]). split; [now rewrite <- app_assoc|].
    intros e' Hin. apply in_app_iff in Hin as [Hin|[<-|[]]]; [exact (Hm e' Hin)|]. destruct e; solve [exact I|destruct He].
Qed.

(** No lost wake-up: a reader whose [wait] is pending while a value is there has been woken since it last
    polled, or a writer is about to do so. *)
Theorem C34_no_lost_wakeup :
  forall s j w, sreach KSignal s -> rd s j = QSleep w -> store s <> None -> s_woken s = true \/ exists i, wr s i = true.
Proof. intros s j w Hr Hj Hs. exact (B_av (Inv3_reach Hr) j Hj Hs). Qed.

(** ... through the waker of its latest poll. *)
Theorem C34_registered_waker_is_newest :
  forall s j w, sreach KSignal s -> rd s j = QSleep w -> swk s = Some w \/ s_woken s = true.
Proof. intros s j w Hr Hj. apply (B_reg (Inv3_reach Hr) j). now rewrite Hj. Qed.

(** A woken or freshly started [wait] returns the value that is there. *)
Theorem C34_wait_completes :
  forall s j w v, sreach KSignal s -> rd s j = QIdle \/ (exists w', rd s j = QSleep w') -> store s = Some v ->
  exists s', run (sstep KSignal) s [SPoll j w; SStep j] = Some s' /\ rd s' j = QIdle /\ store s' = None /\ semits s s' (VTake j v).
Proof.
  intros s j w v Hr Hj Hs. destruct (reg_frame s w) as (E1 & E2 & E3 & E4 & E5 & E6 & E7 & E8 & ws & El).
  assert (Hp : sstep KSignal s (SPoll j w) = Some (set_rd (do_register s w) j (QTake w))) by (simpl; destruct Hj as [->|[w' ->]]; reflexivity).
  unfold run. rewrite Hp. simpl. unfold rstep. simpl. rewrite upd_same, E3, Hs. eexists; split; [reflexivity|]. simpl. rewrite upd_same.
  repeat split. exists (map VWake ws ++ [VTake j v]). simpl. rewrite El, app_assoc. split; [reflexivity|]. apply in_app_iff. right. now left.
Qed.

(** At most one reader exists; taking one succeeds exactly when none exists. *)
Theorem C34_one_reader :
  forall k s, sreach k s ->
  (forall i j, rd s i <> QNone -> rd s j <> QNone -> i = j) /\
  (forall j s', sstep k s (STakeReader j) = Some s' ->
     (semits s s' (VReader j) <-> forall i, rd s i = QNone)).
Proof.
  intros k s Hr. pose proof (Inv1_reach Hr) as H. split; [exact (A_one H)|]. intros j s' Hs. simpl in Hs.
  destruct (rd s j) eqn:E; try discriminate. destruct (ralive s) eqn:Ea; injection Hs as <-.
  - split.
    + intros (es & Ee & Hin). simpl in Ee. apply app_inv_head in Ee. subst es. destruct Hin as [Hin|[]]. discriminate.
    + intros Hn. exfalso. destruct (A_some H Ea) as [i Hi]. apply Hi, Hn.
  - split.
    + intros _ i. destruct (rd s i) eqn:Ei; auto; assert (ralive s = true) by (apply (A_live H i); congruence); congruence.
    + intros _. exists [VReader j]. split; [reflexivity|now left].
Qed.

(** * C35 Watch *)
(** The stored value is the last one written; what a get or changed returns is the value of the write it is
    attributed to. *)
Theorem C35_value_is_newest_partial :
  forall s, sreach KWatch s -> store s = lasto (writes (slog s)) /\
  (forall j n v, In (VGet j n v) (slog s) \/ In (VChg j n v) (slog s) -> exists m, n = S m /\ nth_error (writes (slog s)) m = Some v).
Proof. intros s Hr. pose proof (Inv4_reach Hr) as H. split; [exact (W_store H)|exact (W_log H)]. Qed.

(** The read inside get / changed picks the latest write of that instant. *)
Theorem C35_reads_latest_partial :
  forall s s' j o n v, sreach KWatch s -> rd s j = QGet o -> sstep KWatch s (SStep j) = Some s' -> rd s' j = QMark o n v ->
  n = length (writes (slog s)) /\ lasto (writes (slog s)) = Some v.
Proof.
  intros s s' j o n v Hr Hj Hs Hm. pose proof (Inv4_reach Hr) as H. simpl in Hs. unfold rstep in Hs. rewrite Hj in Hs.
  destruct (store s) as [x|] eqn:E.
  - injection Hs as <-. simpl in Hm. rewrite upd_same in Hm. injection Hm as <- <-. split; [exact (W_vers H)|]. now rewrite <- (W_store H).
  - destruct o; injection Hs as <-; simpl in Hm; rewrite upd_same in Hm; discriminate.
Qed.

(** [changed] never returns twice for one write, nor after try_get returned that write. *)
Theorem C35_changed_is_fresh_partial :
  forall s, sreach KWatch s -> fresh_changes (slog s).
Proof. intros s Hr. exact (W_fresh (Inv4_reach Hr)). Qed.

(** No lost wake-up. *)
Theorem C35_no_lost_wakeup_partial :
  forall s j w, sreach KWatch s -> rd s j = QSleep w -> store s <> None -> seen s = false -> s_woken s = true \/ exists i, wr s i = true.
Proof. intros s j w Hr Hj H1 H2. exact (B_av (Inv3_reach Hr) j Hj (conj H1 H2)). Qed.

(** If no write happens between the reader's reading of a value and its marking it as seen (for instance
    because no writer can preempt the reader), an unseen write is always reported. *)
Theorem C35_unseen_write_is_reported_partial :
  forall s j w, sgreach KWatch (fun s l => match l with SWrite _ _ => forall j o n v, rd s j <> QMark o n v | _ => True end) s ->
  rd s j = QIdle \/ (exists w', rd s j = QSleep w') ->
  (exists v, lasto (writes (slog s)) = Some v) -> ~ In (length (writes (slog s))) (returned (slog s)) ->
  exists s' v, run (sstep KWatch) s [SPoll j w; SStep j; SStep j; SStep j] = Some s' /\ rd s' j = QIdle /\
    semits s s' (VChg j (length (writes (slog s))) v) /\ lasto (writes (slog s)) = Some v.
Proof.
  intros s j w Hg Hj [v Hv] Hn. pose proof (Inv4_reach (greach_reach Hg)) as H. pose proof (Inv5_reach Hg) as H5.
  assert (Hs : seen s = false).
  { destruct (seen s) eqn:E; [|reflexivity]. exfalso. apply Hn. rewrite <- (W_vers H). now apply (Z_seen H5). }
  assert (Hst : store s = Some v) by (now rewrite (W_store H)).
  destruct (reg_frame s w) as (E1 & E2 & E3 & E4 & E5 & E6 & E7 & E8 & ws & El).
  assert (Hp : sstep KWatch s (SPoll j w) = Some (set_rd (do_register s w) j (QSeen w))) by (simpl; destruct Hj as [->|[w' ->]]; reflexivity).
  rewrite <- (W_vers H).
  unfold run. rewrite Hp. simpl. unfold rstep. simpl. rewrite upd_same, E5, Hs. simpl. rewrite upd_same, E3, Hst. simpl. rewrite upd_same, E6.
  eexists; exists v; split; [reflexivity|]. simpl. rewrite upd_same. repeat split; auto.
  exists (map VWake ws ++ [VChg j (vers s) v]). simpl. rewrite El, app_assoc. split; [reflexivity|]. apply in_app_iff. right. now left.
Qed.
End Sig.

Print Assumptions C34_is_a_mailbox.
Print Assumptions C34_returns_newest_once.
Print Assumptions C34_no_lost_wakeup.
Print Assumptions C34_registered_waker_is_newest.
Print Assumptions C34_wait_completes.
Print Assumptions C34_one_reader.
Print Assumptions C35_value_is_newest_partial.
Print Assumptions C35_reads_latest_partial.
Print Assumptions C35_changed_is_fresh_partial.
Print Assumptions C35_no_lost_wakeup_partial.
Print Assumptions C35_unseen_write_is_reported_partial.

(** * Concrete cases *)
Example C34_case : exists s : @sig nat,
  run (sstep KSignal) sig_new [STakeReader 0; SPoll 0 50; SStep 0; SWrite 1 7; SWake 1; SWrite 2 8; SWake 2; STakeReader 3] = Some s /\
  rd s 0 = QSleep 50 /\ store s = Some 8 /\ s_woken s = true /\
  slog s = [VReader 0; VWrite 1 7; VWake 50; VWrite 2 8; VNoReader 3].
Proof. eexists. split; [vm_compute; reflexivity|]. vm_compute. repeat split. Qed.
Example C34_case_take : exists s : @sig nat,
  run (sstep KSignal) sig_new [STakeReader 0; SWrite 1 7; SWake 1; SWrite 2 8; SWake 2; SPoll 0 50; SStep 0; STryRead 0] = Some s /\
  slog s = [VReader 0; VWrite 1 7; VWrite 2 8; VTake 0 8; VEmpty 0].
Proof. eexists. split; vm_compute; reflexivity. Qed.
Example C35_case : exists s : @sig nat,
  run (sstep KWatch) sig_new [STakeReader 0; SWrite 1 7; SWake 1; SPoll 0 50; SStep 0; SStep 0; SStep 0; SPoll 0 50; SStep 0; SWrite 1 8; SWake 1] = Some s /\
  rd s 0 = QSleep 50 /\ seen s = false /\ s_woken s = true /\ returned (slog s) = [1] /\ length (writes (slog s)) = 2.
Proof. eexists. split; [vm_compute; reflexivity|]. vm_compute. repeat split. Qed.

(** * C35: a write that falls between the reader's read (watch.rs 187) and its mark_seen (190) is never
    reported: the value 8 is stored and unseen, all writers are done, and [changed] sleeps, with nothing left
    to wake it. *)
Theorem C35_write_lost_refuted :
  exists s : @sig nat, sreach KWatch s /\
    writes (slog s) = [7; 8] /\ returned (slog s) = [1] /\ store s = Some 8 /\ (forall i, wr s i = false) /\
    exists s', run (sstep KWatch) s [SPoll 0 50; SStep 0] = Some s' /\ rd s' 0 = QSleep 50 /\ s_woken s' = false.
Proof.
  destruct (run (sstep KWatch) (@sig_new nat) [STakeReader 0; SWrite 1 7; SWake 1; SPoll 0 50; SStep 0; SStep 0; SWrite 1 8; SWake 1; SStep 0]) as [s|] eqn:E; [|vm_compute in E; discriminate].
  exists s. split; [eexists; exact E|]. vm_compute in E. injection E as <-. repeat (split; [reflexivity|]). split.
  - intros i. simpl. destruct i as [|[|i]]; reflexivity.
  - eexists. split; [vm_compute; reflexivity|]. vm_compute. auto.
Qed.
Print Assumptions C35_write_lost_refuted.
