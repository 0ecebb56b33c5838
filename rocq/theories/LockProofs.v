From Verif Require Import Base LTS LockModel LockSpec.
Set Implicit Arguments.

Definition applyl {M : Type} (ops : list (M -> M)) (m : M) : M := fold_left (fun x op => op x) ops m.
Lemma applyl_snoc {M} (ops : list (M -> M)) op m : applyl (ops ++ [op]) m = op (applyl ops m).
Proof. unfold applyl. now rewrite fold_left_app. Qed.

Lemma firstn_S_nth {X} (l : list X) k x : nth_error l k = Some x -> firstn (S k) l = firstn k l ++ [x].
Proof. revert k. induction l as [|y l IH]; intros [|k] H; simpl in *; try discriminate; [now injection H as ->|]. now rewrite <- IH. Qed.
Lemma firstn_nth_None {X} (l : list X) k : nth_error l k = None -> firstn k l = l.
Proof. intros H. apply nth_error_None in H. now apply firstn_all2. Qed.

(** What a backend must satisfy.  To restore its registers and to mask no more than it should ([okc m c]: a lock of
    ceiling [c] may be taken under registers [m]; [free c i]: interrupt [i] stays open under a lock of ceiling [c]): *)
Record backend_base (B : backend) (A : lapp) (top : nat) (m0 : bm B) (Good : bm B -> Prop) (okc : bm B -> nat -> Prop) (free : nat -> nat -> bool) : Prop := {
  K_init : Good m0;
  K_init_ok : forall c, c <= top -> okc m0 c;
  K_admit_ok : forall m i c, Good m -> In i (l_lines A) -> admits B m i = true -> l_prio A i <= c -> c <= top -> okc m c;
  K_nest_ok : forall m c c', Good m -> okc m c' -> c' <= top -> c <= top -> l_nest A c' c = true -> okc (applyl (enter B c') m) c;
  K_good_enter : forall m c k, Good m -> okc m c -> c <= top -> Good (applyl (firstn k (enter B c)) m);
  K_good_leave : forall m c k, Good m -> okc m c -> c <= top -> Good (applyl (firstn k (leave B c (save B m c))) (applyl (enter B c) m));
  K_restore : forall m c, Good m -> okc m c -> c <= top -> applyl (leave B c (save B m c)) (applyl (enter B c) m) = m;
  K_handler : forall m i, Good m -> In i (l_lines A) -> admits B m i = true -> hleave B m (l_prio A i) (hsave B m (l_prio A i)) = m;
  K_enter_up : forall m c k i, Good m -> okc m c -> c <= top -> In i (l_lines A) -> admits B m i = true -> free c i = true -> admits B (applyl (firstn k (enter B c)) m) i = true;
  K_leave_up : forall m c k i, Good m -> okc m c -> c <= top -> In i (l_lines A) -> admits B m i = true -> free c i = true ->
     admits B (applyl (firstn k (leave B c (save B m c))) (applyl (enter B c) m)) i = true
}.
(** ... and to mask what it should: *)
Record backend_ok (B : backend) (A : lapp) (top : nat) (m0 : bm B) (Good : bm B -> Prop) (okc : bm B -> nat -> Prop) (free : nat -> nat -> bool) : Prop := {
  K_base :> backend_base B A top m0 Good okc free;
  K_mask : forall m c i, Good m -> okc m c -> c <= top -> In i (l_lines A) -> admits B (applyl (enter B c) m) i = (admits B m i && free c i)%bool;
  K_enter_down : forall m c k i, Good m -> okc m c -> c <= top -> In i (l_lines A) -> admits B (applyl (firstn k (enter B c)) m) i = true -> admits B m i = true;
  K_leave_down : forall m c k i, Good m -> okc m c -> c <= top -> In i (l_lines A) ->
     admits B (applyl (firstn k (leave B c (save B m c))) (applyl (enter B c) m)) i = true -> admits B m i = true
}.

Section Proofs.
Context (B : backend) (A : lapp) (top : nat) (m0 : bm B) (s0 : bs B)
        (Good : bm B -> Prop) (okc : bm B -> nat -> Prop) (free : nat -> nat -> bool).
Context (Kb : backend_base B A top m0 Good okc free) (K : backend_ok B A top m0 Good okc free) (HA : app_ok A top).
Implicit Types (s : mach B) (f : frame B) (m : bm B).
Notation step := (@mstep B A).
Notation ceil := (l_ceil A).

Lemma ceil_top r : ceil r <= top.
Proof. apply HA. Qed.

(** Open lock calls [es] bring the registers from [mb] to [m]. *)
Definition at_phase m' (e : entry B) m : Prop :=
  let c := ceil (e_res e) in
  match e_ph e with
  | PEnter k => m = applyl (firstn k (enter B c)) m'
  | PHeld => m = applyl (enter B c) m'
  | PLeave k => m = applyl (firstn k (leave B c (e_saved e))) (applyl (enter B c) m')
  end.
Inductive ents (mb : bm B) : list (entry B) -> bm B -> Prop :=
| en_nil : ents mb [] mb
| en_cons e es m' m : ents mb es m' -> calm es = true -> Good m' -> okc m' (ceil (e_res e)) -> e_saved e = save B m' (ceil (e_res e)) ->
    locked es (e_res e) = false -> at_phase m' e m -> ents mb (e :: es) m.

Inductive wf : list (frame B) -> bm B -> Prop :=
| wf_thread f m : f_line f = None -> (forall t, f_task f = Some t -> l_line A t = None) ->
    (forall r, in_lock f r -> exists t, f_task f = Some t /\ l_uses A t r = true) -> ents m0 (f_ents f) m -> wf [f] m
| wf_hand f g gs i mb m : wf (g :: gs) mb -> f_line f = Some i -> In i (l_lines A) -> admits B mb i = true ->
    (forall h, In h (g :: gs) -> lprio A (f_line h) < l_prio A i) ->
    f_saved f = hsave B mb (l_prio A i) -> (forall t, f_task f = Some t -> l_line A t = Some i) ->
    (forall r, in_lock f r -> exists t, f_task f = Some t /\ l_uses A t r = true) -> ents mb (f_ents f) m -> wf (f :: g :: gs) m.

Lemma phase_good m' e m : Good m' -> okc m' (ceil (e_res e)) -> e_saved e = save B m' (ceil (e_res e)) -> at_phase m' e m -> Good m.
Proof.
  intros Hg Hk Hs Hp. unfold at_phase in Hp. destruct (e_ph e) as [k| |k]; subst m.
  - eapply K_good_enter; eauto. apply ceil_top.
  - rewrite <- (firstn_all (enter B (ceil (e_res e)))). eapply K_good_enter; eauto. apply ceil_top.
  - rewrite Hs. eapply K_good_leave; eauto. apply ceil_top.
Qed.

Lemma ents_good mb es m : Good mb -> ents mb es m -> Good m.
Proof. intros Hg H. inversion H; subst; auto. eapply phase_good; eauto. Qed.

Lemma wf_good st m : wf st m -> Good m.
Proof. intros H. induction H; eapply ents_good; eauto. eapply K_init; eauto. Qed.

Lemma phase_down m' e m i : Good m' -> okc m' (ceil (e_res e)) -> e_saved e = save B m' (ceil (e_res e)) -> at_phase m' e m ->
  In i (l_lines A) -> admits B m i = true -> admits B m' i = true /\ (e_ph e = PHeld -> free (ceil (e_res e)) i = true).
Proof.
  intros Hg Hk Hs Hp Hi Ha. unfold at_phase in Hp. destruct (e_ph e) as [k| |k]; subst m.
  - split; [|discriminate]. eapply K_enter_down; eauto. apply ceil_top.
  - rewrite (@K_mask _ _ _ _ _ _ _ K m' _ i Hg Hk (ceil_top _) Hi) in Ha. apply andb_prop in Ha as [Ha1 Ha2]. auto.
  - split; [|discriminate]. rewrite Hs in Ha. eapply K_leave_down; eauto. apply ceil_top.
Qed.

Lemma phase_up m' e m i : Good m' -> okc m' (ceil (e_res e)) -> e_saved e = save B m' (ceil (e_res e)) -> at_phase m' e m ->
  In i (l_lines A) -> admits B m' i = true -> free (ceil (e_res e)) i = true -> admits B m i = true.
Proof.
  intros Hg Hk Hs Hp Hi Ha Hf. unfold at_phase in Hp. destruct (e_ph e) as [k| |k]; subst m.
  - eapply K_enter_up; eauto. apply ceil_top.
  - rewrite <- (firstn_all (enter B (ceil (e_res e)))). eapply K_enter_up; eauto. apply ceil_top.
  - rewrite Hs. eapply K_leave_up; eauto. apply ceil_top.
Qed.

Lemma ents_down mb es m i : ents mb es m -> In i (l_lines A) -> admits B m i = true ->
  admits B mb i = true /\ (forall e, In e es -> e_ph e = PHeld -> free (ceil (e_res e)) i = true).
Proof.
  intros H Hi. induction H as [|e es m' m H IH Hc Hg Hk Hs Hl Hp]; intros Ha.
  - split; [exact Ha|intros e []].
  - destruct (@phase_down m' e m i Hg Hk Hs Hp Hi Ha) as [Ha' Hf]. destruct (IH Ha') as [Hb He]. split; [exact Hb|].
    intros e' [<-|Hin]; auto.
Qed.

Lemma ents_up mb es m i : ents mb es m -> In i (l_lines A) -> admits B mb i = true -> (forall e, In e es -> free (ceil (e_res e)) i = true) -> admits B m i = true.
Proof.
  intros H Hi Hb. induction H as [|e es m' m H IH Hc Hg Hk Hs Hl Hp]; intros Hf; [exact Hb|].
  eapply phase_up; eauto; [apply IH; intros; apply Hf; now right|apply Hf; now left].
Qed.

(** An admitted interrupt is free of every lock held anywhere. *)
Lemma wf_down st m i : wf st m -> In i (l_lines A) -> admits B m i = true -> forall f r, In f st -> holds f r -> free (ceil r) i = true.
Proof.
  intros H Hi. induction H as [f m Hl Ht Hu He|f g gs j mb m H IH Hl Hj Ha Hp Hs Ht Hu He]; intros Had h r Hin (e & Hie & <- & Hph).
  - destruct Hin as [<-|[]]. eapply ents_down; eauto.
  - destruct (@ents_down mb _ m i He Hi Had) as [Hb Hf]. destruct Hin as [<-|Hin]; [now apply Hf|]. apply (IH Hb h _ Hin). exists e. auto.
Qed.

Lemma wf_up st m i : wf st m -> In i (l_lines A) -> admits B m0 i = true -> (forall f r, In f st -> in_lock f r -> free (ceil r) i = true) -> admits B m i = true.
Proof.
  intros H Hi H0. induction H as [f m Hl Ht Hu He|f g gs j mb m H IH Hl Hj Ha Hp Hs Ht Hu He]; intros Hf.
  - eapply ents_up; eauto. intros e Hin. apply (Hf f); [now left|]. exists e; auto.
  - eapply ents_up; eauto.
    + apply IH. intros h r Hin. apply Hf. now right.
    + intros e Hin. apply (Hf f); [now left|]. exists e; auto.
Qed.

Lemma at_phase_fun m' (e e' : entry B) m m2 : e_res e = e_res e' -> e_ph e = e_ph e' -> e_saved e = e_saved e' -> at_phase m' e m -> at_phase m' e' m2 -> m = m2.
Proof. unfold at_phase. intros -> -> ->. destruct (e_ph e'); congruence. Qed.

(** The registers are determined by the activity. *)
Lemma ents_fun mb es1 m1 : ents mb es1 m1 -> forall es2 m2, ents mb es2 m2 -> map (fun e => (e_res e, e_ph e)) es1 = map (fun e => (e_res e, e_ph e)) es2 -> m1 = m2 /\ es1 = es2.
Proof.
  intros H. induction H as [|e es m' m H IH Hc Hg Hk Hs Hl Hp]; intros es2 m2 H2 E; destruct H2 as [|e2 es2 m2' m2 H2 Hc2 Hg2 Hk2 Hs2 Hl2 Hp2]; try discriminate; auto.
  simpl in E. injection E as E1 E2 E3. destruct (IH _ _ H2 E3) as [<- <-].
  assert (Hss : e_saved e = e_saved e2) by (rewrite Hs, Hs2, E1; reflexivity).
  split; [eapply at_phase_fun; eauto|]. f_equal. destruct e, e2; simpl in *; congruence.
Qed.

Definition act (st : list (frame B)) := map (fun f => (f_line f, f_task f, map (fun e => (e_res e, e_ph e)) (f_ents f))) st.
Lemma wf_fun st1 m1 : wf st1 m1 -> forall st2 m2, wf st2 m2 -> act st1 = act st2 -> m1 = m2.
Proof.
  intros H. induction H as [f m Hl Ht Hu He|f g gs j mb m H IH Hl Hj Ha Hp Hs Ht Hu He]; intros st2 m2 H2 E; destruct H2 as [f2 m2 Hl2 Ht2 Hu2 He2|f2 g2 gs2 j2 mb2 m2 H2 Hl2 Hj2 Ha2 Hp2 Hs2 Ht2 Hu2 He2]; try discriminate.
  - injection E as E1 E2 E3. eapply ents_fun; eauto.
  - assert (Hm : mb = mb2) by (eapply IH; [exact H2|]; injection E; intros; simpl; congruence). subst mb2.
    injection E as E1 E2 E3 E4. eapply ents_fun; eauto.
Qed.

(** ** Preservation *)
Lemma wf_top_change f f' fs m m' : wf (f :: fs) m -> f_line f' = f_line f -> f_saved f' = f_saved f ->
  (forall t, f_task f' = Some t -> l_line A t = f_line f) ->
  (forall r, in_lock f' r -> exists t, f_task f' = Some t /\ l_uses A t r = true) ->
  (forall mb, Good mb -> (exists i, f_line f = Some i /\ In i (l_lines A) /\ admits B mb i = true) \/ (f_line f = None /\ mb = m0) -> ents mb (f_ents f) m -> ents mb (f_ents f') m') -> wf (f' :: fs) m'.
Proof.
  intros H El Es Et Eu Ee. inversion H as [f1 m1 Hl Ht Hu He|f1 g gs i mb m1 H1 Hl Hi Ha Hp Hs Ht Hu He]; subst.
  - constructor; try congruence; auto. + intros t X. rewrite (Et t X). congruence. + apply Ee; auto. eapply K_init; eauto.
  - econstructor; eauto; try congruence. + intros t X. rewrite (Et t X). exact Hl. + apply Ee; auto; [|left; eauto]. eapply wf_good; eauto.
Qed.

Lemma app_top f fs m t r : wf (f :: fs) m -> f_task f = Some t -> l_uses A t r = true -> lprio A (f_line f) <= ceil r.
Proof.
  intros H Ht Hu. destruct HA as (_ & H2 & _). specialize (H2 _ _ Hu). unfold tprio in H2. inversion H as [f1 m1 Hl Htl|f1 g gs i mb m1 H1 Hl Hi Ha Hp Hs Htl]; subst.
  - rewrite Hl. simpl. lia.
  - rewrite (Htl t Ht) in H2. now rewrite Hl.
Qed.

Lemma wf_task f fs m t : wf (f :: fs) m -> f_task f = Some t -> l_line A t = f_line f.
Proof. intros H X. inversion H as [f1 m1 Hl Ht Hu He|f1 g gs i mb m1 H1 Hl Hi Ha Hp Hs Ht Hu He]; subst; rewrite Hl; auto. Qed.
Lemma wf_uses f fs m r : wf (f :: fs) m -> in_lock f r -> exists t, f_task f = Some t /\ l_uses A t r = true.
Proof. intros H X. inversion H as [f1 m1 Hl Ht Hu He|f1 g gs i mb m1 H1 Hl Hi Ha Hp Hs Ht Hu He]; subst; auto. Qed.

Lemma wf_step s l s' : wf (m_stack s) (m_mask s) -> step s l = Some s' -> wf (m_stack s') (m_mask s').
Proof.
  intros H Hs. unfold mstep in Hs. destruct (m_stack s) as [|f fs] eqn:Est; [discriminate|]. destruct l as [i|t| |r| | |].
  - destruct (can_take A s i) eqn:Ec; [|discriminate]. injection Hs as <-. simpl. unfold can_take in Ec. rewrite Est in Ec.
    apply andb_prop in Ec as [Ec Ep]. apply andb_prop in Ec as [El Ea]. apply existsb_exists in El as (j & Hj & Ej). apply Nat.eqb_eq in Ej. subst j.
    rewrite forallb_forall in Ep. eapply wf_hand with (i := i); eauto.
    + intros h Hin. apply Nat.ltb_lt. now apply Ep.
    + discriminate.
    + intros r (e & [] & _).
    + constructor.
  - destruct (f_task f) eqn:Et; [discriminate|]. destruct (f_ents f) eqn:Ee; [|discriminate].
    destruct (match l_line A t, f_line f with Some i, Some j => Nat.eqb i j | None, None => true | _, _ => false end) eqn:Em; [|discriminate]. injection Hs as <-. simpl.
    eapply wf_top_change; eauto; simpl.
    + intros t' [= <-]. destruct (l_line A t), (f_line f); try discriminate; auto. apply Nat.eqb_eq in Em. congruence.
    + intros r (e & X & _). simpl in X. rewrite Ee in X. destruct X.
  - destruct (f_task f) eqn:Et; [|discriminate]. destruct (f_ents f) eqn:Ee; [|discriminate]. injection Hs as <-. simpl.
    eapply wf_top_change; eauto; simpl.
    + discriminate.
    + intros r (e & X & _). simpl in X. rewrite Ee in X. destruct X.
  - destruct (f_task f) as [t|] eqn:Et; [|discriminate].
    destruct (l_uses A t r) eqn:Eu; [|discriminate]. destruct (calm (f_ents f)) eqn:Ec; [|discriminate].
    destruct (locked (f_ents f) r) eqn:El; [discriminate|]. destruct (nest_ok A (f_ents f) r) eqn:En; [|discriminate]. simpl in Hs. injection Hs as <-. simpl.
    pose proof (app_top _ H Et Eu) as Hpr.
    eapply wf_top_change; eauto; simpl.
    + intros t' Ht'. eapply wf_task; eauto.
    + intros r' (e & [<-|Hin] & Er); simpl in *; [subst; eauto|].
      eapply wf_uses; eauto. exists e; auto.
    + intros mb Hg Hbase He. econstructor; eauto; cbn [e_ph e_res e_saved]; auto.
      * eapply ents_good; eauto.
      * inversion He as [E|e es m' m1 He' Hc' Hg' Hk' Hs' Hl' Hp' E]; subst.
        -- destruct Hbase as [(i & Hi & Hin & Hadm)|[Hn ->]].
           ++ rewrite Hi in Hpr. simpl in Hpr. eapply K_admit_ok; eauto. apply ceil_top.
           ++ eapply K_init_ok; eauto. apply ceil_top.
        -- rewrite <- E in Ec, En. simpl in Ec, En. unfold at_phase in Hp'. destruct (e_ph e); try discriminate. rewrite Hp'.
           eapply K_nest_ok; eauto; apply ceil_top.
      * unfold at_phase. simpl. reflexivity.
  - unfold micro in Hs. destruct (f_ents f) as [|e es] eqn:Ee; [discriminate|].
    assert (G : forall m' f', wf (f :: fs) (m_mask s) -> f_line f' = f_line f -> f_saved f' = f_saved f -> f_task f' = f_task f ->
        (forall r, in_lock f' r -> in_lock f r) -> (forall mb, Good mb -> ents mb (f_ents f) (m_mask s) -> ents mb (f_ents f') m') -> wf (f' :: fs) m').
    { intros m' f' Hw E1 E2 E3 E4 E5. eapply wf_top_change; eauto.
      - intros t X. rewrite E3 in X. eapply wf_task; eauto.
      - intros r X. apply E4 in X. rewrite E3. eapply wf_uses; eauto. }
    destruct (e_ph e) as [k| |k] eqn:Ep; try discriminate.
    + destruct (nth_error (enter B (ceil (e_res e))) k) as [op|] eqn:En; injection Hs as <-; simpl; apply G; auto; simpl.
      * intros r (e' & [<-|Hin] & Er); simpl in *; [exists e; rewrite Ee; simpl; auto|exists e'; rewrite Ee; simpl; auto].
      * intros mb Hg He. rewrite Ee in He. inversion He as [|e1 es1 m' m1 He' Hc' Hg' Hk' Hs' Hl' Hp']; subst. econstructor; eauto; cbn [e_ph e_res e_saved]; auto.
        unfold at_phase in *. rewrite Ep in Hp'. cbn [e_ph e_res e_saved]. rewrite Hp', (firstn_S_nth _ _ En), applyl_snoc. reflexivity.
      * intros r (e' & [<-|Hin] & Er); simpl in *; [exists e; rewrite Ee; simpl; auto|exists e'; rewrite Ee; simpl; auto].
      * intros mb Hg He. rewrite Ee in He. inversion He as [|e1 es1 m' m1 He' Hc' Hg' Hk' Hs' Hl' Hp']; subst. econstructor; eauto; cbn [e_ph e_res e_saved]; auto.
        unfold at_phase in *. rewrite Ep in Hp'. cbn [e_ph e_res e_saved]. now rewrite Hp', (firstn_nth_None _ _ En).
    + destruct (nth_error (leave B (ceil (e_res e)) (e_saved e)) k) as [op|] eqn:En; injection Hs as <-; simpl; apply G; auto; simpl.
      * intros r (e' & [<-|Hin] & Er); simpl in *; [exists e; rewrite Ee; simpl; auto|exists e'; rewrite Ee; simpl; auto].
      * intros mb Hg He. rewrite Ee in He. inversion He as [|e1 es1 m' m1 He' Hc' Hg' Hk' Hs' Hl' Hp']; subst. econstructor; eauto; cbn [e_ph e_res e_saved]; auto.
        unfold at_phase in *. rewrite Ep in Hp'. cbn [e_ph e_res e_saved]. rewrite Hp', (firstn_S_nth _ _ En), applyl_snoc. reflexivity.
      * intros r (e' & Hin & Er); simpl in *; exists e'; rewrite Ee; simpl; auto.
      * intros mb Hg He. rewrite Ee in He. inversion He as [|e1 es1 m' m1 He' Hc' Hg' Hk' Hs' Hl' Hp']; subst.
        unfold at_phase in Hp'. rewrite Ep, (firstn_nth_None _ _ En), Hs' in Hp'. rewrite (@K_restore _ _ _ _ _ _ _ Kb m' _ Hg' Hk' (ceil_top _)) in Hp'. now subst.
  - destruct (f_ents f) as [|e es] eqn:Ee; [discriminate|]. destruct (e_ph e) as [k| |k] eqn:Ep; try discriminate. injection Hs as <-. simpl.
    eapply wf_top_change; eauto; simpl.
    + intros t X. eapply wf_task; eauto.
    + intros r (e' & Hin & Er). simpl in Hin. assert (X : in_lock f r) by (destruct Hin as [<-|Hin]; simpl in *; [exists e|exists e']; rewrite Ee; simpl; auto).
      eapply wf_uses; eauto.
    + intros mb Hg _ He. rewrite Ee in He. inversion He as [|e1 es1 m' m1 He' Hc' Hg' Hk' Hs' Hl' Hp']; subst. econstructor; eauto; cbn [e_ph e_res e_saved]; auto.
      unfold at_phase in *. rewrite Ep in Hp'. exact Hp'.
  - destruct (f_line f) as [i|] eqn:El; [|discriminate]. destruct (f_task f) eqn:Et; [discriminate|]. destruct (f_ents f) eqn:Ee; [|discriminate].
    destruct fs as [|g gs]; [discriminate|]. injection Hs as <-. simpl. inversion H as [|f1 g1 gs1 j mb m1 H1 Hl Hi Ha Hp Hs Htl Hu He]; subst.
    rewrite Ee in He. inversion He; subst. assert (i = j) as -> by congruence. rewrite Hs.
    rewrite (@K_handler _ _ _ _ _ _ _ Kb _ j (wf_good H1) Hi Ha). exact H1.
Qed.

Lemma wf_reach s : mreach A m0 s0 s -> wf (m_stack s) (m_mask s).
Proof.
  refine (@reach_inv _ _ step (fun s => wf (m_stack s) (m_mask s)) _ _ _ s).
  - simpl. constructor; simpl; auto; [discriminate|intros r (e & [] & _)|constructor].
  - intros s1 l s2. apply wf_step.
Qed.

(** ** Consequences *)
Lemma wf_tail above f below m : wf (above ++ f :: below) m -> exists m', wf (f :: below) m'.
Proof.
  revert m. induction above as [|a above IH]; intros m H; [eauto|]. simpl in H.
  remember (a :: above ++ f :: below) as st eqn:E. destruct H as [f1 m1 Hl Ht Hu He|f1 g gs i mb m1 H1 Hl Hi Ha Hp Hs Ht Hu He].
  - injection E as _ E. destruct above; discriminate.
  - injection E as _ E. rewrite E in H1. eauto.
Qed.

Lemma wf_above above f below m : wf (above ++ f :: below) m -> forall g, In g above ->
  exists i, f_line g = Some i /\ In i (l_lines A) /\ (forall h r, In h (f :: below) -> holds h r -> free (ceil r) i = true) /\ (forall h, In h (f :: below) -> lprio A (f_line h) < l_prio A i).
Proof.
  revert m. induction above as [|a above IH]; intros m H g Hin; [destruct Hin|]. simpl in H.
  remember (a :: above ++ f :: below) as st eqn:E. destruct H as [f1 m1 Hl Ht Hu He|f1 g1 gs i mb m1 H1 Hl Hi Ha Hp Hs Ht Hu He].
  - injection E as _ E. destruct above; discriminate.
  - injection E as <- E. rewrite E in *. destruct Hin as [<-|Hin]; [|eauto]. exists i. split; [exact Hl|]. split; [exact Hi|]. split.
    + intros h r Hh Hr. eapply wf_down; eauto. apply in_app_iff. now right.
    + intros h Hh. apply Hp. apply in_app_iff. now right.
Qed.

Lemma locked_spec es r : locked es r = true <-> exists e : entry B, In e es /\ e_res e = r.
Proof.
  unfold locked. rewrite existsb_exists. split; intros (e & H1 & H2); exists e; (split; [exact H1|]); now apply Nat.eqb_eq.
Qed.
Lemma ents_nodup mb es m : ents mb es m -> NoDup (map (fun e => e_res e) es).
Proof.
  intros H. induction H as [|e es m' m H IH Hc Hg Hk Hs Hl Hp]; simpl; constructor; auto.
  intros Hin. apply in_map_iff in Hin as (e' & E & Hin). assert (X : locked es (e_res e) = true) by (apply locked_spec; eauto). congruence.
Qed.
Lemma wf_nodup f fs m : wf (f :: fs) m -> NoDup (map (fun e => e_res e) (f_ents f)).
Proof. intros H. inversion H; subst; eapply ents_nodup; eauto. Qed.

(** The innermost open call of every preempted or running handler's outer locks is inside its closure. *)
Lemma ents_outer_held mb e es m : ents mb (e :: es) m -> forall e', In e' es -> e_ph e' = PHeld.
Proof.
  revert e m. induction es as [|e1 es IH]; intros e m H e' Hin; [destruct Hin|].
  inversion H as [|e0 es0 m' m1 H' Hc Hg Hk Hs Hl Hp]; subst. destruct Hin as [<-|Hin]; [|eauto].
  simpl in Hc. destruct (e_ph e1); try discriminate. reflexivity.
Qed.

(** Without further interrupts, everything runs to completion. *)
Definition cost (e : entry B) : nat :=
  match e_ph e with
  | PEnter k => (length (enter B (ceil (e_res e))) - k) + 3 + length (leave B (ceil (e_res e)) (e_saved e))
  | PHeld => 2 + length (leave B (ceil (e_res e)) (e_saved e))
  | PLeave k => 1 + (length (leave B (ceil (e_res e)) (e_saved e)) - k)
  end.
Definition fcost (f : frame B) : nat := 1 + (match f_task f with Some _ => 1 | None => 0 end) + list_sum (map cost (f_ents f)).
Definition scost (s : mach B) : nat := list_sum (map fcost (m_stack s)).

Lemma finish_dec s l s' : finishing l -> step s l = Some s' -> scost s' < scost s.
Proof.
  unfold scost, mstep. destruct s as [m [|f fs]]; simpl; intros Hf H; [discriminate|]. destruct l as [i|t| |r| | |]; simpl in Hf; try contradiction.
  - destruct (f_task f) eqn:Et; [|discriminate]. destruct (f_ents f) eqn:Ee; [|discriminate]. injection H as <-. simpl. unfold fcost, set_task; simpl. rewrite ?Et, ?Ee. simpl. lia.
  - unfold micro in H. destruct (f_ents f) as [|e es] eqn:Ee; [discriminate|].
    destruct (e_ph e) as [k| |k] eqn:Ep; [|discriminate|].
    + destruct (nth_error (enter B (ceil (e_res e))) k) eqn:En; injection H as <-; simpl; unfold fcost, set_ents; simpl; rewrite ?Ee; simpl; unfold cost; simpl; rewrite ?Ep; [|lia].
      assert (k < length (enter B (ceil (e_res e)))) by (apply nth_error_Some; congruence). lia.
    + destruct (nth_error (leave B (ceil (e_res e)) (e_saved e)) k) eqn:En; injection H as <-; simpl; unfold fcost, set_ents; simpl; rewrite ?Ee; simpl; unfold cost; simpl; rewrite ?Ep; [|lia].
      assert (k < length (leave B (ceil (e_res e)) (e_saved e))) by (apply nth_error_Some; congruence). lia.
  - destruct (f_ents f) as [|e es] eqn:Ee; [discriminate|]. destruct (e_ph e) as [k| |k] eqn:Ep; try discriminate. injection H as <-. simpl. unfold fcost, set_ents; simpl. rewrite ?Ee; simpl. unfold cost; simpl. rewrite ?Ep. lia.
  - destruct (f_line f), (f_task f), (f_ents f), fs; try discriminate. injection H as <-. simpl. unfold fcost; simpl; lia.
Qed.

Lemma finish_bound ls : forall s s', Forall finishing ls -> run step s ls = Some s' -> length ls <= scost s.
Proof.
  induction ls as [|l ls IH]; intros s s' Hf H; simpl in *; [lia|]. destruct (step s l) as [s1|] eqn:E; [|discriminate].
  apply Forall_cons_iff in Hf as [H1 H2]. apply IH in H; auto. apply finish_dec in E; auto. lia.
Qed.

Lemma finish_progress s : wf (m_stack s) (m_mask s) ->
  (exists l s', finishing l /\ step s l = Some s') \/ (exists f, m_stack s = [f] /\ f_line f = None /\ f_task f = None /\ f_ents f = []).
Proof.
  intros H. destruct s as [m st]; simpl in *. destruct st as [|f fs]; [inversion H|].
  destruct (f_ents f) as [|e es] eqn:Ee.
  - destruct (f_task f) eqn:Et.
    + left. exists LStop. unfold mstep. simpl. rewrite Et, Ee. eexists. split; [exact I|reflexivity].
    + inversion H as [f0 m1 Hl Ht Hu He E1 E2|f0 g gs j mb m1 H' Hl Hj Ha Hp Hs Ht Hu He E1 E2]; subst.
      * right. eauto.
      * left. exists LRet. unfold mstep. simpl. rewrite Hl, Et, Ee. eexists. split; [exact I|reflexivity].
  - left. destruct (e_ph e) as [k| |k] eqn:Ep.
    + exists LMicro. unfold mstep. simpl. unfold micro. rewrite Ee, Ep. destruct (nth_error (enter B (ceil (e_res e))) k); eexists; (split; [exact I|reflexivity]).
    + exists LUnlock. unfold mstep. simpl. rewrite Ee, Ep. eexists; (split; [exact I|reflexivity]).
    + exists LMicro. unfold mstep. simpl. unfold micro. rewrite Ee, Ep. destruct (nth_error (leave B (ceil (e_res e)) (e_saved e)) k); eexists; (split; [exact I|reflexivity]).
Qed.

Lemma wf_idle f m : wf [f] m -> f_ents f = [] -> m = m0.
Proof. intros H E. inversion H as [f0 m1 Hl Ht Hu He E1 E2|]; subst. rewrite E in He. inversion He. congruence. Qed.

Lemma wf_shape st m : wf st m -> exists st' f, st = st' ++ [f] /\ f_line f = None /\ (forall g, In g st' -> exists i, f_line g = Some i).
Proof.
  intros H. induction H as [f m Hl Ht Hu He|f g gs j mb m H IH Hl Hj Ha Hp Hs Ht Hu He].
  - exists [], f. repeat split; auto. intros g [].
  - destruct IH as (st' & f0 & E & E0 & Hg). exists (f :: st'), f0. simpl. rewrite E. repeat split; auto. intros h [<-|Hin]; eauto.
Qed.
End Proofs.
