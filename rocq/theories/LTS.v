(** Labelled transition systems given by an executable step function: [step s l = None] means the
    label is not possible in [s].  A schedule is an arbitrary list of labels. *)
From Verif Require Import Base.
Set Implicit Arguments.

Section LTS.
Context {S L : Type} (step : S -> L -> option S).

Fixpoint run (s : S) (ls : list L) : option S :=
  match ls with
  | [] => Some s
  | l :: ls' => match step s l with Some s' => run s' ls' | None => None end
  end.

(** [s'] is reached from [s] by some finite schedule. *)
Definition reach (s s' : S) : Prop := exists ls, run s ls = Some s'.

Lemma run_app s l1 l2 :
  run s (l1 ++ l2) = match run s l1 with Some s' => run s' l2 | None => None end.
Proof.
  revert s. induction l1 as [|l l1 IH]; intros s; simpl; [reflexivity|].
  destruct (step s l); [apply IH|reflexivity].
Qed.

Lemma run_snoc s ls l s' s'' : run s ls = Some s' -> step s' l = Some s'' -> run s (ls ++ [l]) = Some s''.
Proof. intros H1 H2. rewrite run_app, H1. simpl. now rewrite H2. Qed.

Lemma reach_refl s : reach s s.
Proof. now exists []. Qed.

Lemma reach_step s s' s'' l : reach s s' -> step s' l = Some s'' -> reach s s''.
Proof. intros [ls H] Hs. exists (ls ++ [l]). eapply run_snoc; eauto. Qed.

Lemma reach_trans s s' s'' : reach s s' -> reach s' s'' -> reach s s''.
Proof. intros [l1 H1] [l2 H2]. exists (l1 ++ l2). now rewrite run_app, H1. Qed.

Lemma run_inv (P : S -> Prop) :
  (forall s l s', P s -> step s l = Some s' -> P s') ->
  forall ls s s', P s -> run s ls = Some s' -> P s'.
Proof.
  intros Hstep. induction ls as [|l ls IH]; simpl; intros s s' HP Hr.
  - now injection Hr as <-.
  - destruct (step s l) as [s1|] eqn:E; [|discriminate]. eapply IH; [|exact Hr]. eapply Hstep; eauto.
Qed.

Lemma reach_inv (P : S -> Prop) s0 :
  P s0 -> (forall s l s', P s -> step s l = Some s' -> P s') ->
  forall s, reach s0 s -> P s.
Proof. intros H0 Hs s [ls Hr]. eapply run_inv; eauto. Qed.

(** Schedules all of whose steps satisfy a side condition. *)
Section Guarded.
Context (G : S -> L -> Prop).
Fixpoint guarded (s : S) (ls : list L) : Prop :=
  match ls with
  | [] => True
  | l :: ls' => G s l /\ match step s l with Some s' => guarded s' ls' | None => False end
  end.
Definition greach (s s' : S) : Prop := exists ls, guarded s ls /\ run s ls = Some s'.

Lemma greach_inv (P : S -> Prop) s0 :
  P s0 -> (forall s l s', P s -> G s l -> step s l = Some s' -> P s') ->
  forall s, greach s0 s -> P s.
Proof.
  intros H0 Hs s [ls [Hg Hr]]. revert s0 H0 Hg Hr.
  induction ls as [|l ls IH]; simpl; intros s0 H0 Hg Hr.
  - now injection Hr as <-.
  - destruct Hg as [HG Hg]. destruct (step s0 l) as [s1|] eqn:E; [|discriminate].
    eapply IH; [|exact Hg|exact Hr]. eapply Hs; eauto.
Qed.

Lemma greach_reach s s' : greach s s' -> reach s s'.
Proof. intros [ls [_ H]]. now exists ls. Qed.
End Guarded.

End LTS.
