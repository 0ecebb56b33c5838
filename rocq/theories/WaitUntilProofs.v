From Verif Require Import Base LTS WaitUntilModel.
Set Implicit Arguments.

Section Proofs.
Context {G T : Type} (f : nat -> G -> option T).
Notation step := (wstep f).
Notation st := (@wst G T).

Record Inv (s : st) : Prop := {
  I_nodup : NoDup (map fst (w_q s));
  I_in : forall i w, In (i, w) (w_q s) -> w_pc s i = WSleep w;
  I_sleep : forall i w, w_pc s i = WSleep w -> In (i, w) (w_q s) \/ w_woken s i = true
}.

Lemma del_in i q j w : In (j, w) (del i q) <-> In (j, w) q /\ j <> i.
Proof.
  unfold del. rewrite filter_In. simpl. destruct (Nat.eqb_spec j i); simpl; intuition congruence.
Qed.

Lemma del_nodup i q : NoDup (map fst q) -> NoDup (map fst (del i q)).
Proof.
  induction q as [|[j w] q IH]; simpl; [auto|]. intros H. inversion H; subst.
  destruct (Nat.eqb j i); simpl; [now apply IH|]. constructor; [|now apply IH].
  rewrite in_map_iff. intros [[k v] [<- Hin]]. apply del_in in Hin as [Hin _].
  simpl in *. apply H2. apply in_map_iff. now exists (k, v).
Qed.

Lemma Inv_init g : Inv (w_init g).
Proof. constructor; simpl; [constructor|tauto|discriminate]. Qed.

Ltac updc := unfold upd in *; repeat match goal with
  | H : context [Nat.eqb ?a ?b] |- _ => destruct (Nat.eqb_spec a b); subst
  | |- context [Nat.eqb ?a ?b] => destruct (Nat.eqb_spec a b); subst
  end.

Lemma Inv_step s l s' : Inv s -> step s l = Some s' -> Inv s'.
Proof.
  intros [Hnd Hin Hsl] Hs. destruct l as [i w|i|i|i|g|]; simpl in Hs.
  - assert (E : s' = mkWst (w_g s) (del i (w_q s)) (upd (w_pc s) i (WCleaned w)) (upd (w_woken s) i false)).
    { destruct (w_pc s i); congruence. }
    subst s'. clear Hs. constructor; simpl.
    + now apply del_nodup.
    + intros j v Hj. apply del_in in Hj as [Hj Hne]. updc; [congruence|]. now apply Hin.
    + intros j v Hj. updc; [discriminate|]. destruct (Hsl _ _ Hj); [left; now apply del_in|now right].
  - destruct (w_pc s i) eqn:Ep; try discriminate.
    destruct (f i (w_g s)); injection Hs as <-; constructor; simpl; try assumption;
      intros j v Hj; updc; try discriminate; auto; apply Hin in Hj; congruence.
  - destruct (w_pc s i) eqn:Ep; try discriminate. injection Hs as <-. constructor; simpl.
    + rewrite map_app. apply NoDup_snoc; [exact Hnd|]. rewrite in_map_iff.
      intros [[k v] [E Hk]]. simpl in E. subst k. apply Hin in Hk. congruence.
    + intros j v Hj. apply in_app_iff in Hj as [Hj|[Hj|[]]]; updc; auto; try congruence.
      apply Hin in Hj. congruence.
    + intros j v Hj. updc.
      * injection Hj as ->. left. apply in_app_iff. right. now left.
      * destruct (Hsl _ _ Hj); [left; apply in_app_iff; now left|now right].
  - assert (E : s' = mkWst (w_g s) (del i (w_q s)) (upd (w_pc s) i (WDropped)) (w_woken s)).
    { destruct (w_pc s i); congruence. }
    subst s'. clear Hs. constructor; simpl.
    + now apply del_nodup.
    + intros j v Hj. apply del_in in Hj as [Hj Hne]. updc; [congruence|]. now apply Hin.
    + intros j v Hj. updc; [discriminate|]. destruct (Hsl _ _ Hj); [left; now apply del_in|now right].
  - injection Hs as <-. constructor; simpl; assumption.
  - destruct (w_q s) as [|[i w] q] eqn:Eq; injection Hs as <-; constructor; simpl.
    + rewrite Eq. constructor.
    + rewrite Eq. simpl. tauto.
    + intros i v Hi. destruct (Hsl _ _ Hi) as [[]|H]; now right.
    + now inversion Hnd.
    + intros j v Hj. apply Hin. now right.
    + intros j v Hj. updc; [now right|]. destruct (Hsl _ _ Hj) as [[H|H]|H]; [congruence|now left|now right].
Qed.

Lemma Inv_reach g s : reach step (w_init g) s -> Inv s.
Proof. apply reach_inv; [apply Inv_init|apply Inv_step]. Qed.

(** A waiter that returned Pending is in the queue with its latest waker or has been woken. *)
Lemma sleep_registered g s i w :
  reach step (w_init g) s -> w_pc s i = WSleep w -> In (i, w) (w_q s) \/ w_woken s i = true.
Proof. intros Hr. apply (I_sleep (Inv_reach Hr)). Qed.

(** Nothing of a finished / dropped / not-yet-waiting future is in the queue. *)
Lemma no_leftover g s i w :
  reach step (w_init g) s -> In (i, w) (w_q s) -> w_pc s i = WSleep w.
Proof. intros Hr. apply (I_in (Inv_reach Hr)). Qed.

Lemma entry_unique g s : reach step (w_init g) s -> NoDup (map fst (w_q s)).
Proof. intros Hr. apply (I_nodup (Inv_reach Hr)). Qed.

Lemma done_sound s l s' i v :
  step s l = Some s' -> w_pc s i <> WDone v -> w_pc s' i = WDone v ->
  f i (w_g s) = Some v /\ w_g s' = w_g s.
Proof.
  intros Hs H0 H1. destruct l as [j w|j|j|j|g|]; simpl in Hs.
  - destruct (w_pc s j) eqn:E; try discriminate; injection Hs as <-; simpl in *; updc; congruence.
  - destruct (w_pc s j) eqn:E; try discriminate.
    destruct (f j (w_g s)) eqn:Ef; injection Hs as <-; simpl in *; updc; try congruence.
    split; congruence.
  - destruct (w_pc s j) eqn:E; try discriminate; injection Hs as <-; simpl in *; updc; congruence.
  - destruct (w_pc s j) eqn:E; try discriminate; injection Hs as <-; simpl in *; updc; congruence.
  - injection Hs as <-; simpl in *; congruence.
  - destruct (w_q s) as [|[k w] q]; injection Hs as <-; simpl in *; congruence.
Qed.

(** No lost wake-up once the notifier has drained the queue at a moment at which no waiter was
    between evaluating its closure and pushing its link. *)
Definition Jnv (g : G) (s : st) : Prop :=
  w_g s = g /\
  (forall i w, w_pc s i = WPush w -> f i g = None) /\
  (forall i w, w_pc s i = WSleep w -> f i g = None \/ w_woken s i = true).

Lemma Jnv_step g s l s' : (forall g', l <> LSet g') -> Jnv g s -> step s l = Some s' -> Jnv g s'.
Proof.
  intros Hl (Hg & Hp & Hsl) Hs. destruct l as [j w|j|j|j|g'|]; simpl in Hs.
  - assert (E : s' = mkWst (w_g s) (del j (w_q s)) (upd (w_pc s) j (WCleaned w)) (upd (w_woken s) j false)).
    { destruct (w_pc s j); congruence. }
    subst s'. split; [|split]; simpl; auto; intros i0 u0 Hi; updc; try discriminate; eauto.
  - destruct (w_pc s j) eqn:E; try discriminate.
    destruct (f j (w_g s)) eqn:Ef; injection Hs as <-; (split; [|split]; simpl; [assumption| |]);
      intros i0 u0 Hi; updc; try discriminate; eauto.
  - destruct (w_pc s j) eqn:E; try discriminate; injection Hs as <-; (split; [|split]; simpl; [assumption| |]);
      intros i0 u0 Hi; updc; try discriminate; eauto.
  - destruct (w_pc s j) eqn:E; try discriminate; injection Hs as <-; (split; [|split]; simpl; [assumption| |]);
      intros i0 u0 Hi; updc; try discriminate; eauto.
  - now elim (Hl g').
  - destruct (w_q s) as [|[k w] q]; injection Hs as <-.
    + split; [|split]; assumption.
    + split; [|split]; simpl; auto. intros i0 u0 Hi. updc; eauto.
Qed.

Lemma no_lost_wake g0 s1 ls s2 i w v :
  reach step (w_init g0) s1 ->
  w_q s1 = [] ->
  (forall j u, w_pc s1 j <> WPush u) ->
  (forall g', ~ In (LSet g') ls) ->
  run step s1 ls = Some s2 ->
  w_pc s2 i = WSleep w -> f i (w_g s2) = Some v -> w_woken s2 i = true.
Proof.
  intros Hr Hq Hnp Hns Hrun Hsl Hf.
  assert (HJ : Jnv (w_g s1) s1).
  { split; [reflexivity|split].
    - intros j u Hj. now elim (Hnp j u).
    - intros j u Hj. right. destruct (sleep_registered _ Hr Hj) as [Hin|H]; [|exact H].
      now rewrite Hq in Hin. }
  assert (HJ2 : Jnv (w_g s1) s2).
  { clear Hr Hq Hnp Hsl Hf. revert Hrun HJ. generalize (w_g s1) as g. revert s1.
    induction ls as [|l ls IH]; simpl; intros s1 g Hrun HJ.
    - now injection Hrun as <-.
    - destruct (step s1 l) as [s'|] eqn:E; [|discriminate].
      eapply IH; [|exact Hrun|].
      + intros g' Hin. apply (Hns g'). now right.
      + eapply Jnv_step; [|exact HJ|exact E]. intros g' ->. apply (Hns g'). now left. }
  destruct HJ2 as (Hg & _ & H). destruct (H _ _ Hsl) as [Hn|Hw]; [congruence|exact Hw].
Qed.

End Proofs.

(** The window between line 246 and line 265: condition set and queue popped in between. *)
Definition lost_f (_ : nat) (g : bool) : option unit := if g then Some tt else None.

Definition lost_schedule : list (@wlabel bool) :=
  [LPoll 0 7; LEval 0; LSet true; LPop; LPush 0].

Lemma lost_wake :
  exists s, run (wstep lost_f) (w_init false) lost_schedule = Some s /\
    w_pc s 0 = WSleep 7 /\ lost_f 0 (w_g s) = Some tt /\ w_woken s 0 = false.
Proof. eexists. repeat split. Qed.
