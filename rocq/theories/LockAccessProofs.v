(** Proofs about LockAccess.v. *)
From Verif Require Import Base LTS LockModel LockSpec LockAccess SerialSpec.
Set Implicit Arguments.

Section Proofs.
Context (B : backend) (A : lapp) (V : Type) (m0 : bm B) (x0 : bs B) (val : nat -> V) (junk : nat -> nat -> V).
Notation areach := (reach (@astep B A V) (a_init B m0 x0 val junk)).

Lemma inside_iff (f : frame B) r : inside f r = true <-> holds f r.
Proof.
  unfold inside, holds. rewrite existsb_exists. split.
  - intros (e & He & H). apply andb_prop in H as [H1 H2]. apply Nat.eqb_eq in H1. exists e. destruct (e_ph e); try discriminate. auto.
  - intros (e & He & <- & Hp). exists e. split; auto. rewrite Nat.eqb_refl, Hp. reflexivity.
Qed.
Lemma inside_not (f : frame B) r : ~ holds f r -> inside f r = false.
Proof. intros H. destruct (inside f r) eqn:E; auto. now apply inside_iff in E. Qed.

Lemma areach_mach s : areach s -> mreach A m0 x0 (a_m s).
Proof.
  intros R. refine (@reach_inv _ _ (@astep B A V) (fun s => mreach A m0 x0 (a_m s)) _ _ _ s R); [apply reach_refl|].
  clear R s. intros s l s' R Hs. destruct l as [l|r|r v|r]; simpl in Hs.
  - destruct (mstep A (a_m s) l) as [m'|] eqn:E; [|discriminate]. pose proof (reach_step _ R E) as R'.
    destruct (starts A (a_m s) l) as [[[? ?] ?]|]; [|destruct (returns (a_m s) l) as [[[? ?] ?]|]]; injection Hs as <-; exact R'.
  - destruct (can_use (a_m s) r) as [[t d]|]; [|discriminate]. injection Hs as <-. exact R.
  - destruct (can_use (a_m s) r) as [[t d]|]; [|discriminate]. injection Hs as <-. exact R.
  - destruct (can_use (a_m s) r) as [[t d]|]; [|discriminate]. injection Hs as <-. exact R.
Qed.

(** A frame with open locks runs a task. *)
Definition busy (f : frame B) : Prop := f_ents f = [] \/ exists t, f_task f = Some t.
Lemma busy_reach s : mreach A m0 x0 s -> forall f, In f (m_stack s) -> busy f.
Proof.
  intros R. refine (@reach_inv _ _ (@mstep B A) (fun s => forall f, In f (m_stack s) -> busy f) _ _ _ s R).
  { intros f [<-|[]]. now left. }
  clear R s. intros s l s' I Hs. unfold mstep in Hs. destruct (m_stack s) as [|f fs] eqn:Es; [discriminate|].
  pose proof (I f (or_introl eq_refl)) as If.
  assert (If' : forall g, In g fs -> busy g) by (intros; apply I; now right).
  destruct l.
  - destruct (can_take A s i); [|discriminate]. injection Hs as <-. intros g [<-|G]; [now left|apply I; exact G].
  - destruct (f_task f) eqn:Et, (f_ents f) eqn:Ee; try discriminate. destruct (match l_line A t with Some i => _ | None => _ end); [|discriminate]. injection Hs as <-. intros g [<-|G]; auto. right. now exists t.
  - destruct (f_task f) eqn:Et, (f_ents f) eqn:Ee; try discriminate. injection Hs as <-. intros g [<-|G]; auto. left. exact Ee.
  - destruct (f_task f) eqn:Et; try discriminate. destruct (_ && _ && _ && _); [|discriminate]. injection Hs as <-. intros g [<-|G]; auto. right. eexists. exact Et.
  - unfold micro in Hs. destruct (f_ents f) as [|e es] eqn:Ee; [discriminate|]. destruct If as [If|[t Ht]]; [rewrite If in Ee; discriminate|].
    assert (X : forall es', busy (set_ents f es')) by (intros es'; right; exists t; exact Ht).
    destruct (e_ph e).
    + destruct (nth_error _ _); injection Hs as <-; intros g [<-|G]; auto.
    + discriminate.
    + destruct (nth_error _ _); injection Hs as <-; intros g [<-|G]; auto.
  - destruct (f_ents f) as [|e es] eqn:Ee; [discriminate|]. destruct If as [If|[t Ht]]; [rewrite If in Ee; discriminate|]. destruct (e_ph e); try discriminate. injection Hs as <-. intros g [<-|G]; auto. right. exists t. exact Ht.
  - destruct (f_line f), (f_task f), (f_ents f), fs as [|g0 fs]; try discriminate. injection Hs as <-. exact If'.
Qed.

Context (r : nat) (Hex : forall s, mreach A m0 x0 s -> excl_on A r s).

Fixpoint who (st : list (frame B)) : option (nat * option nat) :=
  match st with
  | [] => None
  | f :: fs => if inside f r then Some (length fs, f_task f) else who fs
  end.
Lemma who_none st : (forall f, In f st -> ~ holds f r) -> who st = None.
Proof. induction st as [|f fs IH]; intros H; [reflexivity|]. cbn [who]. rewrite inside_not by (apply H; now left). apply IH. intros; apply H; now right. Qed.

(** How the holder of [r] changes. *)
Lemma who_step s l s' : mreach A m0 x0 s -> mstep A s l = Some s' ->
  match starts A s l, returns s l with
  | Some (r', t, d), _ => if r' =? r then who (m_stack s) = None /\ who (m_stack s') = Some (d, Some t) else who (m_stack s') = who (m_stack s)
  | None, Some (r', t, d) => if r' =? r then who (m_stack s) = Some (d, Some t) /\ who (m_stack s') = None else who (m_stack s') = who (m_stack s)
  | None, None => who (m_stack s') = who (m_stack s)
  end.
Proof.
  intros R Hs. pose proof (Hex (reach_step _ R Hs)) as X'. pose proof (Hex R) as X. pose proof (busy_reach R) as Bz. unfold mstep in Hs. unfold starts, returns.
  unfold excl_on in X, X'. destruct (m_stack s) as [|f fs] eqn:Es; [discriminate|].
  pose proof (Bz f (or_introl eq_refl)) as If. clear Bz R.
  destruct l.
  - destruct (can_take A s i); [|discriminate]. injection Hs as <-. reflexivity.
  - destruct (f_task f) eqn:Et, (f_ents f) eqn:Ee; try discriminate. destruct (match l_line A t with Some i => _ | None => _ end); [|discriminate]. injection Hs as <-.
    cbn [m_stack who]. unfold inside, set_task. cbn [f_ents]. rewrite Ee. reflexivity.
  - destruct (f_task f) eqn:Et, (f_ents f) eqn:Ee; try discriminate. injection Hs as <-. cbn [m_stack who]. unfold inside, set_task. cbn [f_ents]. rewrite Ee. reflexivity.
  - destruct (f_task f) eqn:Et; try discriminate. destruct (_ && _ && _ && _); [|discriminate]. injection Hs as <-. cbn [m_stack who]. unfold inside, set_ents. cbn [f_ents existsb e_ph e_res f_task].
    rewrite andb_false_r. cbn [orb]. reflexivity.
  - unfold micro in Hs. destruct (f_ents f) as [|e es] eqn:Ee; [discriminate|]. destruct If as [If|[t Ht]]; [rewrite If in Ee; discriminate|]. rewrite Ht.
    destruct (e_ph e) eqn:Ep.
    + destruct (nth_error (enter B (l_ceil A (e_res e))) k) as [op|]; injection Hs as <-; cbn [m_stack who].
      * unfold inside, set_ents. rewrite Ee. cbn [f_ents existsb e_ph e_res f_task]. rewrite Ep. reflexivity.
      * cbn [m_stack] in X'. destruct (Nat.eqb_spec (e_res e) r) as [Er|Er].
        -- specialize (X' [] _ fs eq_refl). destruct X' as (_ & X1 & l1 & e1 & l2 & Hl & _ & X2).
           { apply inside_iff. unfold inside, set_ents. cbn [f_ents existsb e_ph e_res]. rewrite Er, Nat.eqb_refl. reflexivity. }
           unfold inside, set_ents. cbn [f_ents existsb e_ph e_res f_task]. rewrite Ee. cbn [existsb]. rewrite Ep, Er, Nat.eqb_refl, Ht. cbn [andb orb]. split; [|reflexivity].
           assert (Y : forall e', In e' es -> e_res e' <> r).
           { cbn [set_ents f_ents] in Hl. destruct l1 as [|e0 l1]; injection Hl as <- Hl.
             - intros e' He'. apply X2. cbn. rewrite <- Hl. exact He'.
             - exfalso. eapply X2; [left; reflexivity|exact Er]. }
           replace (existsb _ es) with false; [apply who_none; intros g G; apply X1; exact G|].
           symmetry. apply not_true_is_false. intros Z. apply existsb_exists in Z as (e' & He' & Z). apply andb_prop in Z as [Z _]. apply Nat.eqb_eq in Z. exact (Y e' He' Z).
        -- unfold inside, set_ents. cbn [f_ents existsb e_ph e_res f_task]. rewrite Ee. cbn [existsb]. rewrite Ep.
           replace (e_res e =? r) with false by (symmetry; now apply Nat.eqb_neq). reflexivity.
    + discriminate.
    + destruct (nth_error _ _); injection Hs as <-; cbn [m_stack who]; unfold inside, set_ents; rewrite Ee; cbn [f_ents existsb e_ph e_res f_task]; rewrite Ep, ?andb_false_r; reflexivity.
  - destruct (f_ents f) as [|e es] eqn:Ee; [discriminate|]. destruct If as [If|[t Ht]]; [rewrite If in Ee; discriminate|]. rewrite Ht. destruct (e_ph e) eqn:Ep; try discriminate. injection Hs as <-. cbn [m_stack who].
    destruct (Nat.eqb_spec (e_res e) r) as [Er|Er].
    + assert (Hf : inside f r = true) by (unfold inside; rewrite Ee; cbn [existsb]; rewrite Er, Nat.eqb_refl, Ep; reflexivity).
      rewrite Hf, Ht. split; [reflexivity|]. destruct (X [] f fs eq_refl) as (_ & X1 & l1 & e1 & l2 & Hl & _ & X2); [now apply inside_iff|].
      assert (Y : forall e', In e' es -> e_res e' <> r).
      { rewrite Ee in Hl. destruct l1 as [|e0 l1]; injection Hl as <- Hl.
        - intros e' He'. apply X2. cbn. rewrite <- Hl. exact He'.
        - exfalso. apply (X2 e); [now left|exact Er]. }
      unfold inside, set_ents. cbn [f_ents existsb e_ph e_res]. rewrite andb_false_r. cbn [orb].
      replace (existsb _ es) with false; [apply who_none; intros g G; apply X1; exact G|].
      symmetry. apply not_true_is_false. intros Z. apply existsb_exists in Z as (e' & He' & Z). apply andb_prop in Z as [Z _]. apply Nat.eqb_eq in Z. exact (Y e' He' Z).
    + unfold inside, set_ents. rewrite Ee. cbn [f_ents existsb e_ph e_res f_task]. replace (e_res e =? r) with false by (symmetry; now apply Nat.eqb_neq). reflexivity.
  - destruct (f_line f), (f_task f), (f_ents f) eqn:Ee, fs as [|g0 fs]; try discriminate. injection Hs as <-. cbn [m_stack who]. unfold inside at 2. rewrite Ee. reflexivity.
Qed.

(** The running task may use [r] only as its holder. *)
Lemma can_use_who s t d : can_use s r = Some (t, d) -> who (m_stack s) = Some (d, Some t).
Proof.
  unfold can_use. destruct (m_stack s) as [|f fs]; [discriminate|]. destruct (f_task f) eqn:Et; [|discriminate]. destruct (calm (f_ents f) && inside f r) eqn:C; [|discriminate].
  intros [= <- <-]. apply andb_prop in C as [_ C]. cbn [who]. rewrite C, Et. reflexivity.
Qed.

Lemma on_app (l1 l2 : list (event V)) : on r (l1 ++ l2) = on r l1 ++ on r l2.
Proof. apply filter_app. Qed.
Lemma on_same t d (a : act V) : on r [mkEv r t d a] = [mkEv r t d a].
Proof. unfold on. simpl. now rewrite Nat.eqb_refl. Qed.
Lemma on_other r' t d (a : act V) : r' <> r -> on r [mkEv r' t d a] = [].
Proof. intros H. unfold on. simpl. now rewrite (proj2 (Nat.eqb_neq _ _) H). Qed.

Definition sinv (s : amach B V) : Prop :=
  exists done v1, serial r (val r) done v1 /\
    match who (m_stack (a_m s)) with
    | None => on r (a_log s) = done /\ a_mem s r = v1
    | Some (d, None) => False
    | Some (d, Some t) => exists body v2, on r (a_log s) = done ++ mkEv r t d Enter :: body /\ accesses r t d v1 body v2 /\ a_copy s d r = v2
    end.

Lemma upd1_same (g : nat -> V) x v : upd1 g x v x = v.
Proof. unfold upd1. now rewrite Nat.eqb_refl. Qed.
Lemma upd1_other (g : nat -> V) x y v : y <> x -> upd1 g x v y = g y.
Proof. intros H. unfold upd1. now rewrite (proj2 (Nat.eqb_neq _ _) H). Qed.
Lemma upd2_same (g : nat -> nat -> V) d x v : upd2 g d x v d x = v.
Proof. unfold upd2. rewrite Nat.eqb_refl. apply upd1_same. Qed.
Lemma upd2_other (g : nat -> nat -> V) d d' x y v : y <> x -> upd2 g d x v d' y = g d' y.
Proof. intros H. unfold upd2. destruct (Nat.eqb_spec d' d) as [->|]; [now apply upd1_other|reflexivity]. Qed.

Lemma sinv_reach s : areach s -> sinv s.
Proof.
  intros R. enough (areach s /\ sinv s) by tauto.
  refine (@reach_inv _ _ (@astep B A V) (fun s => areach s /\ sinv s) _ _ _ s R).
  { split; [apply reach_refl|]. exists [], (val r). split; [constructor|]. split; reflexivity. }
  clear R s. intros s l s' [R I] Hs. split; [exact (reach_step _ R Hs)|].
  pose proof (areach_mach R) as Rm. destruct I as (done & v1 & S & I). destruct l as [l|x|x w|x]; simpl in Hs.
  - destruct (mstep A (a_m s) l) as [m'|] eqn:E; [|discriminate]. pose proof (who_step l Rm E) as W.
    destruct (starts A (a_m s) l) as [[[x t] d]|]; [|destruct (returns (a_m s) l) as [[[x t] d]|]]; injection Hs as <-; unfold sinv; cbn [a_m a_mem a_copy a_log].
    + destruct (Nat.eqb_spec x r) as [->|Hx].
      * destruct W as [W1 W2]. rewrite W1 in I. destruct I as [I1 I2]. exists done, v1. split; [exact S|]. rewrite W2. exists [], v1. rewrite on_app, on_same, I1, upd2_same, I2. repeat split. constructor.
      * rewrite W. exists done, v1. split; [exact S|]. rewrite on_app, on_other, app_nil_r by exact Hx.
        destruct (who (m_stack (a_m s))) as [[d' [t'|]]|]; auto. rewrite upd2_other by auto. exact I.
    + destruct (Nat.eqb_spec x r) as [->|Hx].
      * destruct W as [W1 W2]. rewrite W1 in I. destruct I as (body & v2 & I1 & I2 & I3). rewrite W2. exists (on r (a_log s) ++ [mkEv r t d Exit]), v2. rewrite on_app, on_same, upd1_same. split; [|split; auto].
        rewrite I1, <- app_assoc. cbn [app]. now apply ser_closure with (v1 := v1).
      * rewrite W. exists done, v1. split; [exact S|]. rewrite on_app, on_other, app_nil_r, upd1_other by auto. exact I.
    + rewrite W. exists done, v1. split; [exact S|]. exact I.
  - destruct (can_use (a_m s) x) as [[t d]|] eqn:C; [|discriminate]. injection Hs as <-. unfold sinv. cbn [a_m a_mem a_copy a_log]. exists done, v1. split; [exact S|]. rewrite on_app.
    destruct (Nat.eq_dec x r) as [->|Hx].
    + rewrite (can_use_who _ C) in *. destruct I as (body & v2 & I1 & I2 & I3). exists (body ++ [mkEv r t d (Read v2)]), v2. rewrite on_same, I1, I3, <- app_assoc. repeat split; auto. now constructor.
    + rewrite on_other, app_nil_r by exact Hx. exact I.
  - destruct (can_use (a_m s) x) as [[t d]|] eqn:C; [|discriminate]. injection Hs as <-. unfold sinv. cbn [a_m a_mem a_copy a_log]. exists done, v1. split; [exact S|]. rewrite on_app.
    destruct (Nat.eq_dec x r) as [->|Hx].
    + rewrite (can_use_who _ C) in *. destruct I as (body & v2 & I1 & I2 & I3). exists (body ++ [mkEv r t d (Write w)]), w. rewrite on_same, I1, upd2_same, <- app_assoc. repeat split; auto. econstructor; eauto.
    + rewrite on_other, app_nil_r by exact Hx. destruct (who (m_stack (a_m s))) as [[d' [t'|]]|]; auto. rewrite upd2_other by auto. exact I.
  - destruct (can_use (a_m s) x) as [[t d]|] eqn:C; [|discriminate]. injection Hs as <-. unfold sinv. cbn [a_m a_mem a_copy a_log]. exists done, v1. split; [exact S|].
    destruct (Nat.eq_dec x r) as [->|Hx].
    + rewrite (can_use_who _ C) in *. exact I.
    + rewrite upd1_other by auto. exact I.
Qed.
End Proofs.
