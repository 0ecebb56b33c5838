From Verif Require Import Base WakerRegModel.
Set Implicit Arguments.

Lemma wreg_run_app r o1 o2 :
  wreg_run r (o1 ++ o2) =
  let (r1, k1) := wreg_run r o1 in let (r2, k2) := wreg_run r1 o2 in (r2, k1 ++ k2).
Proof.
  revert r. induction o1 as [|o o1 IH]; intros r; cbn [wreg_run app].
  - now destruct (wreg_run r o2).
  - destruct (wreg_step r o) as [r1 k1]. rewrite IH.
    destruct (wreg_run r1 o1) as [r2 k2]. destruct (wreg_run r2 o2) as [r3 k3].
    now rewrite app_assoc.
Qed.

Lemma reg_kept_or_woken w post r :
  r = Some w -> let (r', k) := wreg_run r post in r' = Some w \/ In w k.
Proof.
  revert r. induction post as [|o post IH]; intros r ->; cbn [wreg_run].
  - now left.
  - destruct o as [w2|]; cbn.
    + destruct (Nat.eqb_spec w w2) as [->|Hne].
      * specialize (IH (Some w2) eq_refl). destruct (wreg_run (Some w2) post). exact IH.
      * destruct (wreg_run (Some w2) post). right. now left.
    + destruct (wreg_run None post). right. now left.
Qed.

Lemma register_sets r w : fst (wreg_register r w) = Some w.
Proof. destruct r as [w2|]; simpl; [|reflexivity]. destruct (Nat.eqb_spec w2 w); subst; reflexivity. Qed.

(** No registered waker is silently dropped. *)
Lemma none_lost pre w post :
  let (r1, k1) := wreg_run wreg_new (pre ++ [WRegister w]) in
  let (r2, k2) := wreg_run r1 post in
  r2 = Some w \/ In w k2.
Proof.
  rewrite wreg_run_app. destruct (wreg_run wreg_new pre) as [r0 k0].
  cbn [wreg_run wreg_step]. destruct (wreg_register r0 w) as [r1 k1] eqn:E.
  pose proof (register_sets r0 w) as H. rewrite E in H. simpl in H.
  apply (@reg_kept_or_woken w post r1 H).
Qed.

Lemma wake_newest_gen pre w :
  snd (wreg_wake (fst (wreg_run wreg_new (pre ++ [WRegister w])))) = [w].
Proof.
  rewrite wreg_run_app. destruct (wreg_run wreg_new pre) as [r0 k0].
  cbn [wreg_run wreg_step]. destruct (wreg_register r0 w) as [r1 k1] eqn:E.
  pose proof (register_sets r0 w) as H. rewrite E in H. simpl in H. subst. reflexivity.
Qed.

Lemma run_sound r ops :
  let (r', k) := wreg_run r ops in
  (forall w, r' = Some w -> r = Some w \/ In (WRegister w) ops) /\
  (forall w, In w k -> r = Some w \/ In (WRegister w) ops).
Proof.
  revert r. induction ops as [|o ops IH]; intros r; cbn [wreg_run].
  - split; [auto|intros w []].
  - destruct o as [v|]; cbn [wreg_step].
    + destruct (wreg_register r v) as [r1 k1] eqn:E.
      assert (Hr1 : r1 = Some v) by (pose proof (register_sets r v) as H; now rewrite E in H).
      assert (Hk1 : forall w, In w k1 -> r = Some w).
      { unfold wreg_register in E. destruct r as [w2|].
        - destruct (Nat.eqb w2 v); injection E as <- <-; simpl; [tauto|]. intros w [->|[]]. reflexivity.
        - injection E as <- <-. simpl. tauto. }
      specialize (IH r1). destruct (wreg_run r1 ops) as [r2 k2]. destruct IH as [IH1 IH2].
      split.
      * intros w Hw. destruct (IH1 w Hw) as [H|H]; [|right; now right].
        right. left. congruence.
      * intros w Hw. apply in_app_iff in Hw as [Hw|Hw]; [left; auto|].
        destruct (IH2 w Hw) as [H|H]; [right; left; congruence|right; now right].
    + destruct (wreg_wake r) as [r1 k1] eqn:E. specialize (IH r1).
      destruct (wreg_run r1 ops) as [r2 k2]. destruct IH as [IH1 IH2].
      assert (Hr1 : r1 = None) by (destruct r; cbn in E; congruence).
      assert (Hk1 : forall w, In w k1 -> r = Some w).
      { destruct r as [w2|]; cbn in E; injection E as <- <-; simpl; [|tauto]. intros w [->|[]]; reflexivity. }
      subst r1. split.
      * intros w Hw. destruct (IH1 w Hw) as [H|H]; [discriminate|right; now right].
      * intros w Hw. apply in_app_iff in Hw as [Hw|Hw]; [left; auto|].
        destruct (IH2 w Hw) as [H|H]; [discriminate|right; now right].
Qed.

Lemma no_spurious ops w : In w (snd (wreg_run wreg_new ops)) -> In (WRegister w) ops.
Proof.
  intros H. pose proof (run_sound wreg_new ops) as Hs. destruct (wreg_run wreg_new ops) as [r k].
  destruct Hs as [_ Hs]. destruct (Hs w H) as [E|E]; [discriminate|exact E].
Qed.

(** Each registration is woken at most once. *)
Definition regs_of (w : nat) (ops : list wreg_op) : nat :=
  length (filter (fun o => match o with WRegister v => Nat.eqb v w | WWake => false end) ops).
Definition wakes_of (w : nat) (k : list nat) : nat := length (filter (Nat.eqb w) k).
Definition held (w : nat) (r : wreg) : nat := match r with Some v => if Nat.eqb v w then 1 else 0 | None => 0 end.

Lemma wakes_of_app w k1 k2 : wakes_of w (k1 ++ k2) = wakes_of w k1 + wakes_of w k2.
Proof. unfold wakes_of. now rewrite filter_app, app_length. Qed.

Lemma wakes_counted w ops : forall r,
  let (r', k) := wreg_run r ops in wakes_of w k + held w r' <= regs_of w ops + held w r.
Proof.
  induction ops as [|o ops IH]; intros r; cbn [wreg_run].
  - cbn. lia.
  - destruct o as [v|]; cbn [wreg_step].
    + unfold wreg_register. destruct r as [u|].
      * destruct (Nat.eqb_spec u v) as [->|Hne].
        -- specialize (IH (Some v)). destruct (wreg_run (Some v) ops) as [r' k]. cbn [app].
           unfold regs_of in *. cbn [filter]. destruct (Nat.eqb v w); cbn [length]; lia.
        -- specialize (IH (Some v)). destruct (wreg_run (Some v) ops) as [r' k].
           rewrite wakes_of_app. unfold regs_of, wakes_of, held in *. cbn [filter length app] in *.
           rewrite (Nat.eqb_sym w u).
           destruct (Nat.eqb v w), (Nat.eqb u w); cbn [length] in *; lia.
      * specialize (IH (Some v)). destruct (wreg_run (Some v) ops) as [r' k]. cbn [app].
        unfold regs_of, held in *. cbn [filter]. destruct (Nat.eqb v w); cbn [length] in *; lia.
    + destruct r as [u|]; cbn [wreg_wake].
      * specialize (IH None). destruct (wreg_run None ops) as [r' k].
        rewrite wakes_of_app. unfold regs_of, wakes_of, held in *. cbn [filter length app] in *.
        rewrite (Nat.eqb_sym w u). destruct (Nat.eqb u w); cbn [length filter] in *; lia.
      * specialize (IH None). destruct (wreg_run None ops) as [r' k]. cbn [app]. unfold regs_of in *. cbn [filter]. exact IH.
Qed.

Lemma woken_at_most_once_per_registration w ops :
  wakes_of w (snd (wreg_run wreg_new ops)) <= regs_of w ops.
Proof.
  pose proof (wakes_counted w ops wreg_new) as H. destruct (wreg_run wreg_new ops) as [r k]. change (held w wreg_new) with 0 in H. cbn [snd]. lia.
Qed.
