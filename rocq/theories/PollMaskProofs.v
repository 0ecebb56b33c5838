(** Proofs about polling delays inside critical sections (PollMask.v). *)
From Verif Require Import Base LTS PollMask.
Set Implicit Arguments.

(** saved bits: only the outermost section may have seen interrupts on *)
Fixpoint saved_ok (base : bool) (o : list (bool * bool)) : Prop :=
  match o with
  | [] => True
  | (_, b) :: o' => b = (match o' with [] => base | _ => false end) /\ saved_ok base o'
  end.

(** the rest of a poll: balanced sections; [MDisable ... MEnable] with no section of its own open *)
Fixpoint bal (esp dis : bool) (d : nat) (k : list mop) : Prop :=
  match k with
  | [] => d = 0 /\ dis = false
  | MEnter :: k => bal esp dis (S d) k
  | MLeave :: k => match d with 0 => False | S d' => bal esp dis d' k end
  | MDisable :: k => esp = true /\ d = 0 /\ dis = false /\ bal esp true 0 k
  | MEnable :: k => esp = true /\ d = 0 /\ dis = true /\ bal esp false 0 k
  end.

Definition is_esp (t : target) : bool := match t with TEsp => true | TNvic => false end.

Lemma bal_pairs esp dis n k : bal esp dis 0 k -> bal esp dis 0 (concat (repeat [MEnter; MLeave] n) ++ k).
Proof. intros H. induction n; simpl; auto. Qed.

Lemma poll_bal t r : bal (is_esp t) false 0 (poll_ops t r).
Proof.
  destruct r as [[n|]|]; simpl; auto. destruct t; simpl; auto.
  repeat split. apply bal_pairs. simpl. auto.
Qed.

Lemma bal_dis esp d k : bal esp true d k -> In MEnable k.
Proof.
  revert d. induction k as [|m k IH]; intros d; simpl; [intros [_ H]; discriminate|].
  destruct m; [intros H; right; eauto| |intros (_ & _ & H & _); discriminate|now left].
  destruct d; [contradiction|]. intros H. right. eauto.
Qed.

Lemma poll_nvic r : ~ In MEnable (poll_ops TNvic r).
Proof. destruct r as [[n|]|]; simpl; intuition discriminate. Qed.

Record MInv (t : target) (s : mst) : Prop := {
  MI_cur : exists I U dis,
    c_open (m_cur s) = I ++ U /\ Forall (fun p => fst p = false) I /\ Forall (fun p => fst p = true) U /\
    bal (is_esp t) dis (length I) (c_todo (m_cur s)) /\ (In MEnable (c_todo (m_cur s)) -> U = []) /\
    saved_ok (negb dis) (c_open (m_cur s)) /\
    m_on s = (match c_open (m_cur s) with [] => negb dis | _ => false end);
  MI_susp : Forall (fun c => c_open c = [] /\ bal (is_esp t) false 0 (c_todo c)) (m_susp s)
}.

Lemma MInv_init t : MInv t m_init.
Proof.
  constructor; simpl; [|constructor].
  exists [], [(true, true)], false. simpl. repeat split; auto. contradiction.
Qed.

Lemma no_users o I U : o = I ++ U -> Forall (fun p => fst p = false) I -> Forall (fun p : bool * bool => fst p = true) U ->
  (~ exists b, In (true, b) o) -> U = [].
Proof.
  intros -> _ HU Hn. destruct U as [|[u b] U]; [reflexivity|].
  apply Forall_inv in HU. simpl in HU. subst u. exfalso. apply Hn. exists b. apply in_or_app. right. now left.
Qed.

Lemma MInv_step t s l s' : MInv t s -> (t = TNvic \/ poll_outside s l) -> m_step t s l = Some s' -> MInv t s'.
Proof.
  intros [(I & U & dis & EO & HI & HU & HB & HE & HS & HM) HP] HG Hs.
  destruct l; simpl in Hs.
  - (* MUserEnter *)
    destruct (c_todo (m_cur s)) eqn:ET; [|discriminate]. injection Hs as <-.
    simpl in HB. destruct HB as [HL ->]. destruct I; [|discriminate]. simpl in EO. subst U.
    constructor; simpl; [|exact HP].
    exists [], ((true, m_on s) :: c_open (m_cur s)), false. simpl. repeat split; auto; contradiction.
  - (* MUserLeave *)
    destruct (c_todo (m_cur s)) eqn:ET; [|discriminate].
    destruct (c_open (m_cur s)) as [|[[|] b] o] eqn:EC; try discriminate. injection Hs as <-.
    simpl in HB. destruct HB as [HL ->]. destruct I; [|discriminate]. simpl in EO. subst U.
    constructor; simpl; [|exact HP].
    exists [], o, false. simpl. destruct HS as [Hb HS]. split; [reflexivity|]. split; [constructor|].
    split; [eapply Forall_inv_tail; exact HU|]. split; [auto|]. split; [contradiction|]. split; [exact HS|].
    rewrite HM, Hb. destruct o; reflexivity.
  - (* MPoll *)
    destruct (c_todo (m_cur s)) eqn:ET; [|discriminate]. injection Hs as <-.
    simpl in HB. destruct HB as [HL ->]. destruct I; [|discriminate]. simpl in EO. subst U.
    constructor; simpl; [|exact HP].
    exists [], (c_open (m_cur s)), false. simpl. split; [reflexivity|]. split; [constructor|]. split; [exact HU|].
    split; [apply poll_bal|]. split; [|split; [exact HS|exact HM]].
    intros Hin. destruct HG as [->|HG]; [elim (@poll_nvic _ Hin)|].
    simpl in HG. apply (@no_users (c_open (m_cur s)) []); auto.
  - (* MOp *)
    destruct (c_todo (m_cur s)) as [|m k] eqn:ET; [discriminate|]. destruct m.
    + injection Hs as <-. constructor; simpl; [|exact HP].
      exists ((false, m_on s) :: I), U, dis. simpl. rewrite EO in *. split; [reflexivity|].
      split; [constructor; auto|]. split; [exact HU|]. split; [exact HB|]. split; [intros; apply HE; now right|].
      split; [|reflexivity]. split; [|exact HS]. rewrite HM. destruct (I ++ U); reflexivity.
    + destruct (c_open (m_cur s)) as [|[[|] b] o] eqn:EC; try discriminate. injection Hs as <-.
      simpl in HB. destruct I as [|p I]; [contradiction|]. simpl in EO, HB. injection EO as <- EO.
      constructor; simpl; [|exact HP].
      exists I, U, dis. destruct HS as [Hb HS].
      split; [exact EO|]. split; [eapply Forall_inv_tail; exact HI|]. split; [exact HU|]. split; [exact HB|].
      split; [intros; apply HE; now right|]. split; [exact HS|].
      rewrite HM, Hb. destruct o; destruct dis; reflexivity.
    + injection Hs as <-. simpl in HB. destruct HB as (He & HL & -> & HB). destruct I; [|discriminate]. simpl in EO.
      constructor; simpl; [|exact HP].
      assert (U = []) as -> by (apply HE; right; eapply bal_dis; exact HB).
      exists [], [], true. rewrite EO. simpl. repeat split; auto.
    + injection Hs as <-. simpl in HB. destruct HB as (He & HL & -> & HB). destruct I; [|discriminate]. simpl in EO.
      constructor; simpl; [|exact HP].
      assert (U = []) as -> by (apply HE; now left).
      exists [], [], false. rewrite EO. simpl. repeat split; auto.
  - (* MPreempt *)
    destruct (m_on s) eqn:EM; [|discriminate]. injection Hs as <-.
    destruct (c_open (m_cur s)) eqn:EC; [|discriminate]. destruct dis; [discriminate|].
    destruct I; [|discriminate].
    constructor; simpl.
    + exists [], [], false. simpl. repeat split; auto.
    + constructor; [split; [exact EC|exact HB]|exact HP].
  - (* MReturn *)
    destruct (c_todo (m_cur s)) eqn:ET; [|discriminate].
    destruct (c_open (m_cur s)) eqn:EC; [|discriminate].
    destruct (m_susp s) as [|c' k]; [discriminate|]. injection Hs as <-.
    pose proof (Forall_inv HP) as [P1 P2]. apply Forall_inv_tail in HP.
    constructor; simpl; [|exact HP].
    exists [], [], false. rewrite P1. simpl. repeat split; auto.
Qed.

Definition m_reach (t : target) (s : mst) : Prop :=
  greach (m_step t) (fun s l => t = TNvic \/ poll_outside s l) m_init s.

Lemma MInv_reach t s : m_reach t s -> MInv t s.
Proof.
  refine (@greach_inv _ _ (m_step t) _ (MInv t) m_init (MInv_init t) _ s).
  intros s0 l s1 H HG Hs. eapply MInv_step; eauto.
Qed.

Lemma reach_nvic s : reach (m_step TNvic) m_init s -> m_reach TNvic s.
Proof.
  intros [ls R]. exists ls. split; [|exact R].
  revert R. generalize m_init. induction ls as [|l ls IH]; simpl; intros s0 R; [exact I|].
  split; [now left|]. destruct (m_step TNvic s0 l); [auto|discriminate].
Qed.

Lemma exclusive t s c : m_reach t s -> In c (m_susp s) -> ~ in_user_section c.
Proof.
  intros R Hin [b Hb]. pose proof (MI_susp (MInv_reach R)) as H. rewrite Forall_forall in H.
  destruct (H c Hin) as [E _]. rewrite E in Hb. destruct Hb.
Qed.

Lemma mask_exact t s : m_reach t s -> c_todo (m_cur s) = [] ->
  m_on s = false <-> in_user_section (m_cur s).
Proof.
  intros R ET. destruct (MI_cur (MInv_reach R)) as (I & U & dis & EO & HI & HU & HB & HE & HS & HM).
  rewrite ET in HB. destruct HB as [HL ->]. destruct I; [|discriminate]. simpl in EO. subst U.
  unfold in_user_section. rewrite HM. destruct (c_open (m_cur s)) as [|[u b] o] eqn:EC.
  - simpl. split; [discriminate|intros [b []]].
  - split; [|reflexivity]. intros _. apply Forall_inv in HU. simpl in HU. subst u. exists b. now left.
Qed.

Lemma poll_steps t s : m_reach t s -> c_todo (m_cur s) <> [] -> exists s', m_step t s MOp = Some s'.
Proof.
  intros R ET. destruct (MI_cur (MInv_reach R)) as (I & U & dis & EO & HI & HU & HB & HE & HS & HM).
  simpl. destruct (c_todo (m_cur s)) as [|m k] eqn:EK; [contradiction|]. destruct m; eauto.
  simpl in HB. destruct I as [|[u b] I]; [contradiction|]. apply Forall_inv in HI. simpl in HI. subst u.
  rewrite EO. simpl. eauto.
Qed.
