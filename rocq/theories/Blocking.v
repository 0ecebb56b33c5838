(** How long lower-priority code can delay a pending interrupt: priority ceilings bound it by one critical section.
    For any masking backend (LockModel.v) that satisfies [backend_ok] and masks in one register write. *)
From Verif Require Import Base LTS LockModel LockSpec LockProofs LockFinal.
Set Implicit Arguments.

(** * Specification *)
Section Spec.
Context (B : backend) (A : lapp).
Implicit Types (s : mach B).
(** Everything active has a priority below [p]. *)
Definition below p s : Prop := forall f, In f (m_stack s) -> lprio A (f_line f) < p.
(** Interrupt [i] is pending and not taken in this step; the hardware takes a pending interrupt as soon as it is admitted, the one
    with the highest priority first. *)
Definition waiting i s (l : mlabel) : Prop :=
  l <> LTake i /\ (can_take A s i = true -> exists j, l = LTake j /\ l_prio A i <= l_prio A j).
(** A step of code of priority below [p]; the start of a handler counts as one of that handler. *)
Definition low_step p s (l : mlabel) : Prop :=
  below p s /\ match l with LTake j => l_prio A j < p | _ => True end.
(** In [s] the running handler has lower priority than [i] and is inside a call of [lock], with ceiling at least the priority of [i], that was
    open in [s0] already: the same handler and task, the same resource [r], and the calls around it ([outer], all with lower ceilings)
    are untouched; so are all handlers below.  What was active above that handler in [s0] had at least the priority of [i].  Only one call
    of [s0] fits this description. *)
Definition inside_call i s0 s : Prop :=
  exists above0 f0 f fs r es0 e0 es e outer,
    m_stack s0 = above0 ++ f0 :: fs /\ m_stack s = f :: fs /\ (forall g, In g above0 -> l_prio A i <= lprio A (f_line g)) /\
    lprio A (f_line f) < l_prio A i /\ f_line f = f_line f0 /\ f_task f = f_task f0 /\
    f_ents f0 = es0 ++ e0 :: outer /\ f_ents f = es ++ e :: outer /\ e_res e0 = r /\ e_res e = r /\
    l_prio A i <= l_ceil A r /\ forall e', In e' outer -> l_ceil A (e_res e') < l_prio A i.
End Spec.

(** * Proofs *)
Section Proofs.
Context (B : backend) (A : lapp) (top : nat) (m0 : bm B) (x0 : bs B) (Good : bm B -> Prop) (okc : bm B -> nat -> Prop) (free : nat -> nat -> bool).
Context (K : backend_ok B A top m0 Good okc free) (HA : app_ok A top).
Context (Hm0 : forall i, In i (l_lines A) -> admits B m0 i = true).
Context (Hfree : forall c i j, In j (l_lines A) -> In i (l_lines A) -> l_prio A j < l_prio A i -> free c j = true -> free c i = true).
Context (He1 : forall c, length (enter B c) <= 1) (Hl1 : forall c x, length (leave B c x) <= 1).
Notation ceil := (l_ceil A).
Notation step := (@mstep B A).
Notation wf := (wf A m0 Good okc).
Notation ents := (ents A Good okc).

Definition mono (m : bm B) : Prop := forall j i, In j (l_lines A) -> In i (l_lines A) -> l_prio A j < l_prio A i -> admits B m j = true -> admits B m i = true.
Lemma first1 {X} (l : list X) k : length l <= 1 -> firstn k l = [] \/ firstn k l = l.
Proof. destruct l as [|x [|y l]]; simpl; intros; destruct k; simpl; auto; try lia. right. now rewrite firstn_nil. Qed.

Lemma phase_mono m' e m : mono m' -> Good m' -> okc m' (ceil (e_res e)) -> e_saved e = save B m' (ceil (e_res e)) -> at_phase A m' e m -> mono m.
Proof.
  intros M G O S P. assert (H : mono (applyl (enter B (ceil (e_res e))) m')).
  { intros j i Ij Ii Hp. rewrite !(K_mask K); auto; try apply HA. intros X. apply andb_prop in X as [X1 X2]. apply andb_true_intro. eauto. }
  unfold at_phase in P. destruct (e_ph e) as [k| |k]; subst m.
  - destruct (@first1 _ (enter B (ceil (e_res e))) k (He1 _)) as [-> | ->]; [exact M|exact H].
  - exact H.
  - rewrite S. destruct (@first1 _ (leave B (ceil (e_res e)) (save B m' (ceil (e_res e)))) k (Hl1 _ _)) as [-> | ->]; [exact H|].
    rewrite (K_restore K); auto. apply HA.
Qed.
Lemma ents_mono mb es m : ents mb es m -> mono mb -> mono m.
Proof. intros H M. induction H; [exact M|]. eapply phase_mono; eauto. Qed.
Lemma wf_mono st m : wf st m -> mono m.
Proof.
  intros H. induction H as [f m Hl Ht Hu He|f g gs j mb m H IH Hl Hj Ha Hp Hs Ht Hu He].
  - eapply ents_mono; eauto. intros j i _ Hi _ _. now apply Hm0.
  - eapply ents_mono; eauto.
Qed.

(** The lowest open call whose ceiling masks [i], if any. *)
Lemma lowest i (es : list (entry B)) : (forall e, In e es -> free (ceil (e_res e)) i = true) \/
  exists es1 e rest, es = es1 ++ e :: rest /\ free (ceil (e_res e)) i = false /\ forall e', In e' rest -> free (ceil (e_res e')) i = true.
Proof.
  induction es as [|e es [IH|(es1 & e1 & rest & -> & H1 & H2)]]; [left; intros e []| |].
  - destruct (free (ceil (e_res e)) i) eqn:E; [left; intros e' [<-|I]; auto|right]. exists [], e, es. auto.
  - right. exists (e :: es1), e1, rest. auto.
Qed.

Context (i : nat) (Hi : In i (l_lines A)).
Notation p := (l_prio A i).

(** For a running low-priority frame: the base mask of its open calls lets [i] through. *)
Lemma base_admits f fs m : wf (f :: fs) m -> lprio A (f_line f) < p -> exists mb, ents mb (f_ents f) m /\ admits B mb i = true.
Proof.
  intros H L. inversion H as [f1 m1 Hl Ht Hu He|f1 g gs j mb m1 H1 Hl Hj Ha Hp Hs Ht Hu He]; subst.
  - exists m0. auto.
  - exists mb. split; [exact He|]. rewrite Hl in L. simpl in L. exact (@wf_mono _ _ H1 j i Hj Hi L Ha).
Qed.
Lemma blocked_entry f fs m : wf (f :: fs) m -> lprio A (f_line f) < p -> admits B m i = false ->
  exists es e rest, f_ents f = es ++ e :: rest /\ free (ceil (e_res e)) i = false /\ forall e', In e' rest -> free (ceil (e_res e')) i = true.
Proof.
  intros H L E. destruct (base_admits H L) as (mb & He & Hb). destruct (lowest i (f_ents f)) as [C|C]; [|exact C].
  exfalso. rewrite (ents_up K HA i He Hi Hb C) in E. discriminate.
Qed.

Section Run.
Context (s0 : mach B) (R0 : mreach A m0 x0 s0).

(** In the run so far the low part of the stack is that of [s0], except inside the call that blocks [i]; or [i] is
    not blocked by it. *)
Definition linked (f0 f : frame B) : Prop :=
  f_line f = f_line f0 /\ f_task f = f_task f0 /\ exists es0 e0 es e rest, f_ents f0 = es0 ++ e0 :: rest /\ f_ents f = es ++ e :: rest /\
    e_res e = e_res e0 /\ e_saved e = e_saved e0 /\ free (ceil (e_res e0)) i = false /\ forall e', In e' rest -> free (ceil (e_res e')) i = true.
Definition P (s : mach B) : Prop := wf (m_stack s) (m_mask s) /\ exists above f fs,
  m_stack s = above ++ f :: fs /\ (forall g, In g above -> p <= lprio A (f_line g)) /\ (forall g, In g (f :: fs) -> lprio A (f_line g) < p) /\
  ((exists m, wf (f :: fs) m /\ admits B m i = true) \/
   exists above0 f0, m_stack s0 = above0 ++ f0 :: fs /\ (forall g, In g above0 -> p <= lprio A (f_line g)) /\ linked f0 f).

Lemma split_low s : mreach A m0 x0 s -> exists above f fs, m_stack s = above ++ f :: fs /\ (forall g, In g above -> p <= lprio A (f_line g)) /\ (forall g, In g (f :: fs) -> lprio A (f_line g) < p).
Proof.
  intros R. assert (Hp : 1 <= p) by apply HA, Hi. destruct (wf_shape (wf_reach K HA R)) as (st & f & E & El & _).
  assert (Inc := fun above f below g => @gen_increasing B A top m0 x0 Good okc free K HA s above f below g R). rewrite E in *. clear E R.
  induction st as [|g st IH].
  - exists [], f, []. simpl. rewrite <- and_assoc. split; [split; [reflexivity|intros g []]|]. intros g [<-|[]]. rewrite El. simpl. lia.
  - assert (Inc' : forall above f0 below g0, st ++ [f] = above ++ f0 :: below -> In g0 above -> lprio A (f_line f0) < lprio A (f_line g0)).
    { intros a f0 b g0 E I. refine (Inc (g :: a) f0 b g0 _ (or_intror I)). simpl. now rewrite <- E. }
    destruct (le_lt_dec p (lprio A (f_line g))) as [G|G].
    + destruct (IH Inc') as (above & f1 & fs & E & H1 & H2). exists (g :: above), f1, fs. simpl. rewrite E. split; [reflexivity|]. split; [intros h [<-|I]; auto|exact H2].
    + exists [], g, (st ++ [f]). simpl. split; [reflexivity|]. split; [intros h []|]. intros h [<-|I]; [exact G|].
      apply in_split in I as (l1 & l2 & E). assert (X : lprio A (f_line h) < lprio A (f_line g)).
      { refine (Inc (g :: l1) h l2 g _ (or_introl eq_refl)). simpl. now rewrite <- E. } lia.
Qed.

Lemma P_init : P s0.
Proof.
  pose proof (wf_reach K HA R0) as W. split; [exact W|]. destruct (split_low R0) as (above & f & fs & E & H1 & H2). exists above, f, fs.
  repeat (split; [assumption|]). rewrite E in W. destruct (wf_tail _ _ _ W) as [m Wm].
  destruct (admits B m i) eqn:Ea; [left; eauto|right]. exists above, f. repeat (split; [assumption|]).
  destruct (blocked_entry Wm (H2 f (or_introl eq_refl)) Ea) as (es & e & rest & Ef & F1 & F2).
  split; [reflexivity|]. split; [reflexivity|]. exists es, e, es, e, rest. auto 8.
Qed.

(** Steps of a high frame leave the low part alone. *)
Lemma step_high s l s' a above f fs : step s l = Some s' -> m_stack s = a :: above ++ f :: fs ->
  (exists a', m_stack s' = a' :: above ++ f :: fs /\ f_line a' = f_line a) \/ (m_stack s' = above ++ f :: fs) \/
  exists j h, l = LTake j /\ can_take A s j = true /\ f_line h = Some j /\ m_stack s' = h :: a :: above ++ f :: fs.
Proof.
  unfold mstep. intros H E. rewrite E in H. destruct l as [j|t| |r| | |].
  - destruct (can_take A s j) eqn:C; [|discriminate]. injection H as <-. right. right. eexists j, _. cbn [m_stack]. split; [reflexivity|]. split; [exact C|]. split; [|reflexivity]. reflexivity.
  - destruct (f_task a), (f_ents a); try discriminate. destruct (match l_line A t with Some _ => _ | None => _ end); [|discriminate]. injection H as <-. left. eexists. split; reflexivity.
  - destruct (f_task a), (f_ents a); try discriminate. injection H as <-. left. eexists. split; reflexivity.
  - destruct (f_task a); [|discriminate]. destruct (_ && _)%bool; [|discriminate]. injection H as <-. left. eexists. split; reflexivity.
  - destruct (micro A (m_mask s) a) as [[m' a']|] eqn:Em; [|discriminate]. injection H as <-. left. exists a'. split; [reflexivity|]. unfold micro in Em. destruct (f_ents a) as [|e es]; [discriminate|]. destruct (e_ph e); [|discriminate|]; destruct (nth_error _ _); injection Em as _ <-; reflexivity.
  - destruct (f_ents a) as [|e es]; [discriminate|]. destruct (e_ph e); try discriminate. injection H as <-. left. eexists. split; reflexivity.
  - destruct (f_line a) eqn:La, (f_task a), (f_ents a); try discriminate. destruct (above ++ f :: fs) as [|g gs] eqn:Eg; [discriminate|]. injection H as <-. right. left. reflexivity.
Qed.

(** Steps of the blocked frame keep the blocking call, or end it. *)
Lemma step_low s l s' f fs es e rest : step s l = Some s' -> m_stack s = f :: fs -> f_ents f = es ++ e :: rest -> (forall j, l <> LTake j) ->
  exists f', m_stack s' = f' :: fs /\ f_line f' = f_line f /\ f_task f' = f_task f /\
    ((exists es' e', f_ents f' = es' ++ e' :: rest /\ e_res e' = e_res e /\ e_saved e' = e_saved e) \/ f_ents f' = rest).
Proof.
  unfold mstep. intros H E Ef Nt. rewrite E in H. destruct l as [j|t| |r| | |].
  - now elim (Nt j).
  - destruct (f_task f); [discriminate|]. rewrite Ef in H. destruct (es ++ e :: rest) eqn:X; [destruct es; discriminate|discriminate].
  - destruct (f_task f); [|discriminate]. rewrite Ef in H. destruct (es ++ e :: rest) eqn:X; [destruct es; discriminate|discriminate].
  - destruct (f_task f) eqn:Et; [|discriminate]. destruct (_ && _)%bool; [|discriminate]. injection H as <-. eexists. cbn [m_stack]. split; [reflexivity|]. split; [reflexivity|]. split; [exact Et || reflexivity|].
    left. cbn [set_ents f_ents]. rewrite Ef. eexists (_ :: es), e. split; [reflexivity|]. auto.
  - unfold micro in H. rewrite Ef in H. destruct es as [|e1 es]; simpl in H.
    + destruct (e_ph e) as [k| |k]; [|discriminate|].
      * destruct (nth_error (enter B (ceil (e_res e))) k); injection H as <-; (eexists; cbn [m_stack]; split; [reflexivity|split; [reflexivity|split; [reflexivity|]]]);
          left; (exists []; eexists; simpl; split; [reflexivity|]; auto).
      * destruct (nth_error (leave B (ceil (e_res e)) (e_saved e)) k); injection H as <-; (eexists; cbn [m_stack]; split; [reflexivity|split; [reflexivity|split; [reflexivity|]]]);
          [left; (exists []; eexists; simpl; split; [reflexivity|]; auto)|right; reflexivity].
    + destruct (e_ph e1) as [k| |k]; [|discriminate|].
      * destruct (nth_error (enter B (ceil (e_res e1))) k); injection H as <-; (eexists; cbn [m_stack]; split; [reflexivity|split; [reflexivity|split; [reflexivity|]]]);
          left; (eexists (_ :: es), e; simpl; split; [reflexivity|]; auto).
      * destruct (nth_error (leave B (ceil (e_res e1)) (e_saved e1)) k); injection H as <-; (eexists; cbn [m_stack]; split; [reflexivity|split; [reflexivity|split; [reflexivity|]]]);
          left; [eexists (_ :: es), e|exists es, e]; simpl; auto.
  - rewrite Ef in H. destruct es as [|e1 es]; simpl in H.
    + destruct (e_ph e); try discriminate. injection H as <-. eexists. cbn [m_stack]. split; [reflexivity|]. split; [reflexivity|]. split; [reflexivity|]. left. exists []. eexists. simpl. split; [reflexivity|]. auto.
    + destruct (e_ph e1); try discriminate. injection H as <-. eexists. cbn [m_stack]. split; [reflexivity|]. split; [reflexivity|]. split; [reflexivity|]. left. eexists (_ :: es), e. simpl. auto.
  - destruct (f_line f); [|discriminate]. destruct (f_task f); [discriminate|]. rewrite Ef in H. destruct (es ++ e :: rest) eqn:X; [destruct es; discriminate|discriminate].
Qed.

Lemma P_step s l s' : P s -> waiting A i s l -> step s l = Some s' -> P s'.
Proof.
  intros [W (above & f & fs & E & H1 & H2 & C)] [Nt Ur] Hs. pose proof (wf_step K HA _ _ W Hs) as W'. split; [exact W'|].
  assert (TK : forall j h, l = LTake j -> can_take A s j = true -> f_line h = Some j -> m_stack s' = h :: m_stack s -> (p <= l_prio A j -> exists above' f' fs',
      m_stack s' = above' ++ f' :: fs' /\ (forall g, In g above' -> p <= lprio A (f_line g)) /\ (forall g, In g (f' :: fs') -> lprio A (f_line g) < p) /\
      ((exists m, wf (f' :: fs') m /\ admits B m i = true) \/ exists above0 f0, m_stack s0 = above0 ++ f0 :: fs' /\ (forall g, In g above0 -> p <= lprio A (f_line g)) /\ linked f0 f'))).
  { intros j h -> Cj Lh Es' Hj. exists (h :: above), f, fs. rewrite Es', E. split; [reflexivity|]. split; [|split; assumption].
    intros g [<-|G]; [rewrite Lh; exact Hj|auto]. }
  destruct above as [|a above].
  - simpl in E. destruct (can_take A s i) eqn:Ci.
    + destruct (Ur eq_refl) as (j & -> & Hj). unfold mstep in Hs. rewrite E in Hs. destruct (can_take A s j) eqn:Cj; [|discriminate]. injection Hs as <-.
      refine (TK j _ eq_refl Cj _ _ Hj); [|rewrite E; reflexivity]; reflexivity.
    + (* blocked *)
      assert (Hl : forall g, In g (m_stack s) -> lprio A (f_line g) < p) by (rewrite E; exact H2).
      assert (Na : admits B (m_mask s) i = false).
      { destruct (admits B (m_mask s) i) eqn:Ea; [|reflexivity]. exfalso. assert (X : can_take A s i = true) by (apply can_take_spec; auto). congruence. }
      rewrite E in W. destruct C as [(m & Wm & Am)|(above0 & f0 & E0 & H0 & L)].
      * assert (m = m_mask s) by (exact (@wf_fun B A m0 Good okc _ _ Wm _ _ W eq_refl)). congruence.
      * destruct (match l with LTake j => inl j | _ => inr tt end) as [j|] eqn:El.
        -- destruct l; try discriminate. injection El as ->. unfold mstep in Hs. rewrite E in Hs. destruct (can_take A s j) eqn:Cj; [|discriminate]. injection Hs as <-.
           destruct (le_lt_dec p (l_prio A j)) as [G|G]; [refine (TK j _ eq_refl Cj _ _ G); [|rewrite E; reflexivity]; reflexivity|]. exfalso.
           apply can_take_spec in Cj as (Ij & Aj & _). pose proof (@wf_mono _ _ W j i Ij Hi G Aj). congruence.
        -- assert (NT : forall j, l <> LTake j) by (intros j ->; discriminate).
           destruct L as (Lf & Lt & es0 & e0 & es & e & rest & F0 & F & Er & Es & Fr & Frest).
           destruct (@step_low s l s' f fs es e rest Hs E F NT) as (f' & Es' & Lf' & Lt' & D). exists [], f', fs. simpl. split; [exact Es'|]. split; [intros g []|].
           split; [intros g [<-|G]; [rewrite Lf'; apply H2; now left|apply H2; now right]|]. destruct D as [(es' & e' & F' & Er' & Es2)|F'].
           ++ right. exists above0, f0. split; [exact E0|]. split; [exact H0|]. split; [congruence|]. split; [congruence|]. exists es0, e0, es', e', rest. repeat (split; [congruence|]). auto.
           ++ left. exists (m_mask s'). rewrite Es' in W'. split; [exact W'|].
              destruct (base_admits W') as (mb & He & Hb); [rewrite Lf'; apply H2; now left|]. eapply (ents_up K HA i He Hi Hb). rewrite F'. exact Frest.
  - simpl in E. destruct (@step_high s l s' a above f fs Hs E) as [(a' & Es' & La)|[Es'|(j & h & -> & Cj & Lh & Es')]].
    + exists (a' :: above), f, fs. split; [exact Es'|]. split; [|auto]. intros g [<-|G]; [rewrite La|]; apply H1; [now left|now right].
    + exists above, f, fs. split; [exact Es'|]. split; [|auto]. intros g G. apply H1. now right.
    + eapply (TK j h); auto; [now rewrite E|]. apply can_take_spec in Cj as (_ & _ & Cj). specialize (Cj a). rewrite E in Cj. specialize (Cj (or_introl eq_refl)). specialize (H1 a (or_introl eq_refl)). lia.
Qed.

(** While [i] waits, code of lower priority runs only inside one call of [lock], open since [s0]. *)
Lemma one_section (Hc : forall c, c <= top -> free c i = (c <? p)) s l s' : greach step (waiting A i) s0 s -> waiting A i s l -> step s l = Some s' -> low_step A p s l -> inside_call A i s0 s /\ forall j, l <> LTake j.
Proof.
  intros G Wt Hs [Hb Hl]. assert (PS : P s) by (refine (@greach_inv _ _ step _ P s0 P_init _ s G); intros; eapply P_step; eauto).
  destruct PS as [W (above & f & fs & E & H1 & H2 & C)].
  destruct above as [|a above]; [|exfalso; specialize (H1 a (or_introl eq_refl)); specialize (Hb a); rewrite E in Hb; specialize (Hb (or_introl eq_refl)); lia].
  simpl in E. destruct (can_take A s i) eqn:Ci.
  { exfalso. destruct (proj2 Wt Ci) as (j & -> & Hj). lia. }
  assert (Na : admits B (m_mask s) i = false).
  { destruct (admits B (m_mask s) i) eqn:Ea; [|reflexivity]. exfalso. assert (X : can_take A s i = true) by (apply can_take_spec; auto). congruence. }
  assert (NT : forall j, l <> LTake j).
  { intros j ->. unfold mstep in Hs. rewrite E in Hs. destruct (can_take A s j) eqn:Cj; [|discriminate]. apply can_take_spec in Cj as (Ij & Aj & _). pose proof (@wf_mono _ _ W j i Ij Hi Hl Aj). congruence. }
  split; [|exact NT]. rewrite E in W. destruct C as [(m & Wm & Am)|(above0 & f0 & E0 & H0 & (Lf & Lt & es0 & e0 & es & e & rest & F0 & F & Er & Es & Fr & Frest))].
  { assert (m = m_mask s) by exact (@wf_fun B A m0 Good okc _ _ Wm _ _ W eq_refl). congruence. }
  assert (Ct : forall r, ceil r <= top) by apply HA. rewrite (Hc _ (Ct _)) in Fr. apply Nat.ltb_ge in Fr.
  exists above0, f0, f, fs, (e_res e0), es0, e0, es, e, rest. repeat (split; [first [assumption|reflexivity|apply H2; now left]|]).
  intros e' I. specialize (Frest e' I). rewrite (Hc _ (Ct _)) in Frest. now apply Nat.ltb_lt.
Qed.
End Run.
End Proofs.
