(** The arbiter of ArbiterModel.v as a component: its futures are the clients' [access] calls. *)
From Verif Require Import Base LTS ArbiterModel ArbiterSpec ArbiterProofs ComposeModel ComposeProofs ComposeChannel.
Set Implicit Arguments.

Section Arb.
Context {V : Type} (v0 : V).
Implicit Types s : @arb V.

(** arbiter.rs 109-123: the waker is stored when the future first has to wait *)
Definition arb_owner s (j : nat) : option nat :=
  match a_pc (cl s j), a_link (cl s j) with
  | AWait, KQueued | AWait, KPopped => Some (a_waker (cl s j))
  | _, _ => None
  end.
Definition arb_woken s (j : nat) : bool := match a_link (cl s j) with KPopped => true | _ => false end.
Definition arb_wakes s (l : @alabel V) : list nat :=
  match astep s l with
  | Some s' => flat_map (fun e => match e with GWake _ w => [w] | _ => [] end) (skipn (length (alog s)) (alog s'))
  | None => []
  end.
Definition arb_start (l : @alabel V) : option (nat * nat) := match l with APoll j w => Some (j, w) | _ => None end.

Definition arb_comp : component (@arb V) (@alabel V) nat :=
  mkComp Nat.eq_dec (arb_new v0) astep (fun _ _ => True) arb_start arb_owner (fun _ _ => false) arb_woken arb_wakes.

Lemma arb_kreach s : kreach arb_comp s -> areach v0 s.
Proof. apply greach_reach. Qed.

(** every step keeps a client's link as it is, or hands it the arbiter and wakes it, or leaves it not waiting,
    or is a poll of it *)
Lemma client_step s l s' k : areach v0 s -> astep s l = Some s' ->
  (a_pc (cl s' k) = a_pc (cl s k) /\ a_link (cl s' k) = a_link (cl s k) /\ a_waker (cl s' k) = a_waker (cl s k) /\
   (forall w, l = APoll k w -> a_link (cl s k) <> KPopped)) \/
  (a_pc (cl s' k) = a_pc (cl s k) /\ a_link (cl s' k) = KPopped /\ a_link (cl s k) = KQueued /\ a_waker (cl s' k) = a_waker (cl s k) /\ exists es, alog s' = alog s ++ es /\ In (GWake k (a_waker (cl s k))) es) \/
  arb_owner s' k = None \/
  (exists w, l = APoll k w /\ a_link (cl s' k) = KQueued /\ a_waker (cl s' k) = w).
Proof.
  intros Hr Hs. destruct l as [j|j w|j|j|j|j|j v]; cbn [astep] in Hs.
  - destruct (a_pc (cl s j)) eqn:Ep; try discriminate. injection Hs as <-. unfold arb_owner. simpl. unfold upd. destruct (Nat.eqb_spec k j) as [-> |]; auto.
    left. repeat split; auto. discriminate.
  - destruct (a_pc (cl s j)) eqn:Ep; try discriminate. injection Hs as <-. unfold do_poll. destruct (queue_empty s && negb (taken s))%bool eqn:Eq.
    + unfold arb_owner. simpl. unfold upd. destruct (Nat.eqb_spec k j) as [-> |]; auto. left. repeat split; auto. congruence.
    + destruct (a_link (cl s j)) eqn:El.
      * simpl. unfold arb_owner. simpl. unfold upd. destruct (Nat.eqb_spec k j) as [-> |]; [right; right; right; simpl; eauto|]. left. repeat split; auto. congruence.
      * left. repeat split; auto. intros w' E. injection E as ->. congruence.
      * unfold arb_owner. simpl. unfold upd. destruct (Nat.eqb_spec k j) as [-> |]; auto. left. repeat split; auto. congruence.
  - destruct (a_pc (cl s j)) eqn:Ep; try discriminate. injection Hs as <-. unfold arb_owner. simpl. unfold remove_link. unfold upd. destruct (Nat.eqb_spec k j) as [-> |]; auto.
    left. destruct (a_link (cl s j)); simpl; repeat split; auto; discriminate.
  - destruct (a_pc (cl s j)) eqn:Ep; try discriminate. injection Hs as <-. unfold arb_owner. simpl. unfold remove_link. unfold upd. destruct (Nat.eqb_spec k j) as [-> |]; auto.
    left. destruct (a_link (cl s j)); simpl; repeat split; auto; discriminate.
  - destruct (a_pc (cl s j)) eqn:Ep; try discriminate. injection Hs as <-. unfold do_try. destruct (queue_empty s && negb (taken s))%bool.
    + unfold arb_owner. simpl. unfold upd. destruct (Nat.eqb_spec k j) as [-> |]; auto. left. repeat split; auto. discriminate.
    + left. repeat split; auto. discriminate.
  - destruct (a_pc (cl s j)) eqn:Ep; try discriminate. injection Hs as <-. unfold do_release. simpl. destruct (awq s) as [|i q] eqn:Eq.
    + unfold arb_owner. simpl. unfold upd. destruct (Nat.eqb_spec k j) as [-> |]; auto. left. repeat split; auto. discriminate.
    + unfold arb_owner. simpl. unfold upd. destruct (Nat.eqb_spec k i) as [-> |Hki].
      * assert (Ei : a_link (cl s i) = KQueued) by (apply (I_in (AInv_reach Hr)); rewrite Eq; now left).
        assert (i <> j) by (intros ->; apply (I_q (AInv_reach Hr)) in Ei; congruence).
        destruct (Nat.eqb_spec i j); [congruence|]. right. left. simpl. repeat split; auto.
        exists [GRelease j; GWake i (a_waker (cl s i))]. rewrite <- app_assoc. split; [reflexivity|right; now left].
      * destruct (Nat.eqb_spec k j) as [-> |]; auto. left. repeat split; auto. discriminate.
  - destruct (a_pc (cl s j)) eqn:Ep; try discriminate. injection Hs as <-. left. repeat split; auto. discriminate.
Qed.

Lemma arb_contract : contract arb_comp.
Proof.
  constructor.
  - intros j. reflexivity.
  - intros s l s' j t Hr _ Hs Ho; simpl in *. apply arb_kreach in Hr.
    destruct (@client_step s l s' j Hr Hs) as [(X1 & X2 & X3 & _)|[(X1 & X2 & X3 & X4 & _)|[X|(w & -> & X1 & X2)]]]; unfold arb_owner in *.
    + rewrite X1, X2, X3 in Ho. auto.
    + rewrite X1, X2, X4 in Ho. rewrite X3. destruct (a_pc (cl s j)); auto.
    + congruence.
    + rewrite X1, X2 in Ho. destruct (a_pc (cl s' j)); try discriminate. injection Ho as ->. auto.
  - intros s l s' j t Hr _ Hs Ho Hw; simpl in *. apply arb_kreach in Hr.
    destruct (@client_step s l s' j Hr Hs) as [(X1 & X2 & X3 & X4)|[(X1 & X2 & X3 & X4 & es & X5 & X6)|[X|(w & -> & X1 & X2)]]]; unfold arb_owner, arb_woken in *.
    + rewrite X1, X2, X3 in Ho. rewrite X2 in Hw. right. repeat split; auto. intros w E. destruct l; try discriminate. injection E as -> ->.
      apply (X4 w eq_refl). destruct (a_link (cl s j)); congruence.
    + left. rewrite X1, X2, X4 in Ho. unfold arb_wakes. rewrite Hs, X5, skipn_log. apply in_flat_map. eexists. split; [exact X6|].
      destruct (a_pc (cl s j)); try discriminate. injection Ho as <-. now left.
    + congruence.
    + rewrite X1 in Hw. discriminate.
Qed.
End Arb.
