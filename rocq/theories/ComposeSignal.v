(** Signal and Watch of SignalModel.v as components: the futures are the readers' [wait] / [changed]. *)
From Verif Require Import Base LTS WakerRegModel SignalModel SignalSpec SignalProofs ComposeModel ComposeProofs ComposeChannel.
Set Implicit Arguments.

Section Sig.
Context {V : Type} (kd : kind).
Implicit Types s : @sig V.

Definition sig_mid s (j : nat) : bool := match rd s j with QTake _ | QSeen _ | QGet (Some _) | QMark (Some _) _ _ => true | _ => false end.
Definition sig_owner s (j : nat) : option nat :=
  match rd s j with
  | QTake w | QSleep w | QSeen w => Some w
  | QGet o | QMark o _ _ => o
  | _ => None
  end.
Definition sig_wakes s (l : @slabel V) : list nat :=
  match sstep kd s l with
  | Some s' => flat_map (fun e => match e with VWake w => [w] | _ => [] end) (skipn (length (slog s)) (slog s'))
  | None => []
  end.
Definition sig_start (l : @slabel V) : option (nat * nat) := match l with SPoll j w => Some (j, w) | _ => None end.

Definition sig_comp : component (@sig V) (@slabel V) nat :=
  mkComp Nat.eq_dec sig_new (sstep kd) (fun _ _ => True) sig_start sig_owner sig_mid (fun s _ => s_woken s) sig_wakes.

Lemma sig_kreach s : kreach sig_comp s -> sreach kd s.
Proof. apply greach_reach. Qed.

Ltac crush Hs := repeat match type of Hs with
  | context [match ?x with _ => _ end] => destruct x eqn:?; try discriminate
  end.

Lemma register_fields s w : s_woken (do_register s w) = false /\ rd (do_register s w) = rd s.
Proof. unfold do_register. destruct (wreg_register (swk s) w). split; reflexivity. Qed.

(** which reader a step is about, and what it does to [s_woken] *)
Lemma reader_step s l s' j t : sstep kd s l = Some s' -> sig_owner s' j = Some t ->
  (sig_owner s j = Some t \/ l = SPoll j t) /\
  (s_woken s' = true -> (s_woken s = true /\ forall i w, l <> SPoll i w) \/ (exists w, swk s = Some w /\ exists es, slog s' = slog s ++ es /\ In (VWake w) es)).
Proof.
  intros Hs Ho. destruct l as [i v|i|i|i|i|i|i|i|i w|i|i]; cbn [sstep] in Hs.
  - crush Hs. injection Hs as <-. split; [auto|]. left. split; [assumption|discriminate].
  - crush Hs. injection Hs as <-. split; [auto|]. left. split; [assumption|discriminate].
  - crush Hs. injection Hs as <-. unfold do_wake in *. destruct (swk s) as [w|] eqn:Ew; simpl in *.
    + split; [auto|]. intros _. right. exists w. split; [reflexivity|]. exists [VWake w]. split; [reflexivity|now left].
    + split; [auto|]. left. split; [assumption|discriminate].
  - crush Hs; injection Hs as <-; unfold sig_owner in *; simpl in *.
    + split; [auto|]. left. split; [assumption|discriminate].
    + unfold upd in Ho. destruct (Nat.eqb_spec j i) as [-> |]; [discriminate|]. split; [auto|]. left. split; [assumption|discriminate].
  - crush Hs; injection Hs as <-; unfold sig_owner in *; simpl in *.
    unfold upd in Ho. destruct (Nat.eqb_spec j i) as [-> |]; [discriminate|]. split; [auto|]. left. split; [assumption|discriminate].
  - crush Hs; injection Hs as <-; (split; [auto|]); left; (split; [assumption|discriminate]).
  - crush Hs; injection Hs as <-; (split; [auto|]); left; (split; [assumption|discriminate]).
  - crush Hs; injection Hs as <-; unfold sig_owner in *; simpl in *.
    unfold upd in Ho. destruct (Nat.eqb_spec j i) as [-> |]; [discriminate|]. split; [auto|]. left. split; [assumption|discriminate].
  - destruct (register_fields s w) as [E1 E2].
    crush Hs; injection Hs as <-; unfold sig_owner in *; simpl in *; rewrite E1; rewrite E2 in Ho;
      (split; [|discriminate]); unfold upd in Ho; (destruct (Nat.eqb_spec j i) as [-> |]; [|auto]); destruct kd; injection Ho as ->; auto.
  - unfold rstep in Hs. destruct (rd s i) as [| |w|w|w|o|o n v] eqn:Er; try discriminate.
    + crush Hs; injection Hs as <-; unfold sig_owner in *; simpl in *; unfold upd in Ho;
        (destruct (Nat.eqb_spec j i) as [-> |]; [|split; [auto|left; split; [assumption|discriminate]]]); try discriminate.
      rewrite Er. split; [auto|left; split; [assumption|discriminate]].
    + injection Hs as <-; unfold sig_owner in *; simpl in *; unfold upd in Ho;
        (destruct (Nat.eqb_spec j i) as [-> |]; [|split; [auto|left; split; [assumption|discriminate]]]).
      rewrite Er. split; [destruct (seen s); auto|left; split; [assumption|discriminate]].
    + crush Hs; injection Hs as <-; unfold sig_owner in *; simpl in *; unfold upd in Ho;
        (destruct (Nat.eqb_spec j i) as [-> |]; [|split; [auto|left; split; [assumption|discriminate]]]); try discriminate;
        rewrite Er; (split; [auto|left; split; [assumption|discriminate]]).
    + injection Hs as <-; unfold sig_owner in *; simpl in *; unfold upd in Ho;
        (destruct (Nat.eqb_spec j i) as [-> |]; [|split; [auto|left; split; [assumption|discriminate]]]); discriminate.
  - crush Hs; injection Hs as <-; unfold sig_owner in *; simpl in *.
    unfold upd in Ho. destruct (Nat.eqb_spec j i) as [-> |]; [discriminate|]. split; [auto|]. left. split; [assumption|discriminate].
Qed.

Lemma owner_wof s j t : sig_owner s j = Some t -> wof (rd s j) = Some t.
Proof. unfold sig_owner. destruct (rd s j) as [| |w|w|w|[w|]|[w|] n v]; simpl; auto; discriminate. Qed.

Lemma sig_contract : contract sig_comp.
Proof.
  constructor.
  - intros j. reflexivity.
  - intros s l s' j t Hr _ Hs Ho; simpl in *. destruct (@reader_step s l s' j t Hs Ho) as [[X| ->] _]; auto.
  - intros s l s' j t Hr _ Hs Ho Hw; simpl in *. destruct (@reader_step s l s' j t Hs Ho) as [X Y]. apply sig_kreach in Hr.
    destruct (Y Hw) as [[Z1 Z2]|(w & Z & es & E1 & E2)].
    + right. destruct X as [X| ->]; [|exfalso; eapply Z2; reflexivity]. repeat split; auto. intros w E. destruct l; try discriminate. eapply Z2. reflexivity.
    + destruct X as [X| ->].
      * destruct (B_reg (Inv3_reach Hr) j (owner_wof _ _ X)) as [D|D].
        -- left. rewrite Z in D. injection D as ->. unfold sig_wakes. rewrite Hs, E1, skipn_log. apply in_flat_map. eexists. split; [exact E2|now left].
        -- destruct (s_woken s) eqn:Ew; [|discriminate]. destruct l as [i v|i|i|i|i|i|i|i|i w0|i|i]; try (right; repeat split; auto; discriminate).
           cbn [sstep] in Hs. destruct (register_fields s w0) as [F1 _]. crush Hs; injection Hs as <-; simpl in Hw; congruence.
      * exfalso. cbn [sstep] in Hs. destruct (register_fields s t) as [F1 _]. crush Hs; injection Hs as <-; simpl in Hw; congruence.
Qed.
End Sig.
