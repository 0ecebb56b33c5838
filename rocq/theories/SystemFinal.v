(** What holds at rest, what runs, and when a bad poll can happen, in the whole application (SystemModel.v). *)
From Verif Require Import Base LTS LockModel LockSpec LockProofs LockFinal StackBound ExecModel ExecSpec ExecProofs ExecProgress PropertiesExec SystemModel SystemSpec SystemProofs SystemProgress.
Set Implicit Arguments.

(** Every accepted spawn has returned, or is still in progress. *)
Section Alloc.
Context {V : Type} (zero : bool) (tasks : list nat).
Notation step := (@xstep V zero tasks).
Definition spawning (s : @ex V) t id v : Prop := exists c, ctx s c = CWrite t id v \/ ctx s c = CSet t id v \/ ctx s c = CPend t (Some (id, v)).
Definition alloc_inv (s : @ex V) : Prop := forall t id v, In (XAlloc t id v) (elog s) -> (exists c, In (XOk c t id v) (elog s)) \/ spawning s t id v.
Lemma alloc_keep (s s' : @ex V) es : alloc_inv s -> elog s' = elog s ++ es -> (forall t id v, ~ In (XAlloc t id v) es) -> (forall t id v, spawning s t id v -> spawning s' t id v) -> alloc_inv s'.
Proof.
  intros H E N K t id v I. rewrite E in *. apply in_app_iff in I as [I|I]; [|elim (N _ _ _ I)]. destruct (H _ _ _ I) as [[c X]|X]; [left; exists c; apply in_app_iff; auto|right; auto].
Qed.
Lemma spawn_upd (s : @ex V) (s' : @ex V) c p : ctx s' = upd (ctx s) c p -> (forall t id v, ctx s c <> CWrite t id v /\ ctx s c <> CSet t id v /\ ctx s c <> CPend t (Some (id, v))) -> forall t id v, spawning s t id v -> spawning s' t id v.
Proof.
  intros E N t id v (c' & X). exists c'. rewrite E. rewrite upd_other; [exact X|]. intros ->. destruct (N t id v) as (N1 & N2 & N3). tauto.
Qed.
Lemma alloc_reach s : xreach zero tasks s -> alloc_inv s.
Proof.
  refine (@reach_inv _ _ step alloc_inv _ _ _ s); [intros t id v []|]. clear s. intros s l s' H Hs. unfold xstep in Hs. destruct (ebug s); [discriminate|].
  assert (NIL : forall t id v, ~ In (@XAlloc V t id v) []) by (intros t id v []).
  assert (KD : forall s1 : @ex V, ctx s1 = ctx s -> forall t id v, spawning s t id v -> spawning s1 t id v) by (intros s1 E t id v (c & X); exists c; now rewrite E).
  destruct l as [c t v|c t|c| | |r].
  - destruct (ctx s c) eqn:Ec; try discriminate. destruct (in_dec _ _ _); [|discriminate]. injection Hs as <-. unfold do_spawn. destruct (running s t).
    + apply (@alloc_keep s _ [XErr c t v] H); [reflexivity|intros ? ? ? [X|[]]; discriminate X|now apply KD].
    + intros t' id v'. simpl. intros I. apply in_app_iff in I as [I|[I|[]]].
      * destruct (H _ _ _ I) as [[c' X]|(c' & X)]; [left; exists c'; apply in_app_iff; auto|]. right. exists c'. simpl. rewrite upd_other; [exact X|]. intros ->. rewrite Ec in X. intuition discriminate.
      * injection I as -> <- ->. right. exists c. simpl. rewrite upd_same. now left.
  - destruct (ctx s c) eqn:Ec; try discriminate. destruct (in_dec _ _ _); [|discriminate]. injection Hs as <-. apply (@alloc_keep s _ [] H); [simpl; now rewrite app_nil_r|exact NIL|]. eapply spawn_upd; [reflexivity|]. intros. rewrite Ec. repeat split; discriminate.
  - unfold ctx_step in Hs. destruct (ctx s c) as [|t id v|t id v|t o] eqn:Ec; try discriminate; injection Hs as <-.
    + apply (@alloc_keep s _ [] H); [simpl; now rewrite app_nil_r|exact NIL|]. intros t' id' v' (c' & X). destruct (Nat.eq_dec c' c) as [-> |N]; [|exists c'; simpl; rewrite upd_other; auto].
      rewrite Ec in X. exists c. simpl. rewrite upd_same. destruct X as [X|[X|X]]; [|discriminate..]. injection X as <- <- <-. auto.
    + apply (@alloc_keep s _ [] H); [simpl; now rewrite app_nil_r|exact NIL|]. intros t' id' v' (c' & X). destruct (Nat.eq_dec c' c) as [-> |N]; [|exists c'; simpl; rewrite upd_other; auto].
      rewrite Ec in X. exists c. simpl. rewrite upd_same. destruct X as [X|[X|X]]; [discriminate| |discriminate]. injection X as <- <- <-. auto.
    + intros t' id' v' I. simpl in *. apply in_app_iff in I as [I|[I|[]]]; [|destruct o as [[? ?]|]; discriminate I]. destruct (H _ _ _ I) as [[c' X]|(c' & X)]; [left; exists c'; apply in_app_iff; auto|].
      destruct (Nat.eq_dec c' c) as [-> |N]; [|right; exists c'; simpl; rewrite upd_other; auto]. rewrite Ec in X. destruct X as [X|[X|X]]; [discriminate|discriminate|]. injection X as -> ->. left. exists c. apply in_app_iff. right. now left.
  - destruct (dp s); try discriminate. destruct (_ || _)%bool; [|discriminate]. injection Hs as <-. apply (@alloc_keep s _ [] H); [simpl; now rewrite app_nil_r|exact NIL|now apply KD].
  - destruct (dp s); try discriminate. destruct (_ && _)%bool; [|discriminate]. injection Hs as <-. apply (@alloc_keep s _ [] H); [simpl; now rewrite app_nil_r|exact NIL|now apply KD].
  - assert (X : exists es, elog s' = elog s ++ es /\ ctx s' = ctx s /\ forall t id v, ~ In (XAlloc t id v) es).
    { assert (S0 : forall s1 : @ex V, elog s1 = elog s -> ctx s1 = ctx s -> exists es, elog s1 = elog s ++ es /\ ctx s1 = ctx s /\ forall t id v, ~ In (XAlloc t id v) es) by (intros s1 E1 E2; exists []; rewrite app_nil_r; auto).
      unfold disp_step in Hs. destruct (dp s) as [|ts|[|t ts]|t ts|t ts|t ts]; try discriminate; try (injection Hs as <-; now apply S0).
      + destruct (pending s t); [destruct (slot s t)|]; injection Hs as <-; try (now apply S0). eexists. split; [reflexivity|]. split; [reflexivity|]. intros ? ? ? [X|[]]; discriminate X.
      + destruct r; [destruct (slot s t); try discriminate|]; injection Hs as <-; now apply S0.
      + destruct (slot s t); try discriminate. injection Hs as <-. eexists. split; [reflexivity|]. split; [reflexivity|]. intros ? ? ? [X|[]]; discriminate X. }
    destruct X as (es & E1 & E2 & E3). eapply alloc_keep; eauto.
Qed.
End Alloc.

Section Final.
Context {V : Type} (B : backend) (P : sapp) (Hok : sapp_ok P) (m0 : bm B) (x0 : bs B).
Notation A := (sa_lock P).
Notation sys := (sys V B).
Notation step := (@ystep V B P).
Notation yreach := (yreach P m0 x0).
Implicit Types (s : sys) (f : frame B).

Lemma rest_ctx s : yreach s -> at_rest s -> (forall k, ebug (y_x s (Some k)) = false) /\ forall k c, ctx (y_x s k) c = CIdle.
Proof.
  intros R H. split.
  - intros k. apply not_true_is_false. intros X. exact (N_bug (PendInv_reach R) _ X (proj2 (AR_disp H k))).
  - intros k c. destruct (ctx (y_x s k) c) eqn:E; [reflexivity|exfalso..]; assert (N : ctx (y_x s k) c <> CIdle) by congruence; apply (C_call (CallInv_reach R)) in N; rewrite (AR_call H) in N; discriminate.
Qed.
Lemma rest_polled s i t id v : yreach s -> at_rest s -> In (XAlloc t id v) (elog (y_x s (Some i))) -> In (XPoll t id v) (elog (y_x s (Some i))).
Proof.
  intros R H I. pose proof (yreach_x (Some i) R) as X. destruct (rest_ctx R H) as [Eb Ec]. destruct (@alloc_reach _ _ _ _ X _ _ _ I) as [[c O]|(c & [E|[E|E]])]; [|rewrite Ec in E; discriminate..].
  eapply C15_at_rest_all_spawns_polled; eauto; try apply (AR_disp H); auto.
Qed.

Lemma yrun_x k ls : forall s s', run step s ls = Some s' -> exists ls', run (xs P k) (y_x s k) ls' = Some (y_x s' k).
Proof.
  induction ls as [|l ls IH]; simpl; intros s s' E; [injection E as <-; now exists []|]. destruct (step s l) as [s1|] eqn:E1; [|discriminate]. destruct (IH _ _ E) as [ls' X].
  destruct (ystep_xpart _ _ _ E1 k) as [Y|[l' Y]]; [rewrite <- Y; eauto|]. exists (l' :: ls'). simpl. now rewrite Y.
Qed.
Lemma wake_x s l s1 k t : step s l = Some s1 -> (l = YUser k t None \/ exists e, l = YEnv e k t None) -> exists c, xs P k (y_x s k) (LWake c t) = Some (y_x s1 k).
Proof.
  unfold ystep. intros Hs L. destruct (m_stack (y_m s)) as [|f fs]; [discriminate|]. destruct L as [-> |[e ->]].
  - destruct (f_task f); [|discriminate]. destruct (calm _); [|discriminate]. unfold ucall in Hs. destruct (free s _); [|discriminate]. apply bind_inv in Hs as (z & E & [= <-]). apply xdo_inv in E as (e & E & ->). exists (hctx (f_line f)). unfold after_call. cbn [y_x]. now rewrite updo_same.
  - destruct (existsb _ _); [|discriminate]. unfold ucall in Hs. destruct (free s _); [|discriminate]. apply bind_inv in Hs as (z & E & [= <-]). apply xdo_inv in E as (e' & E & ->). exists (ectx e). unfold after_call. cbn [y_x]. now rewrite updo_same.
Qed.
Lemma rest_woken s l s1 ls s2 i t : yreach s -> step s l = Some s1 -> (l = YUser (Some i) t None \/ exists e, l = YEnv e (Some i) t None) -> run step s1 ls = Some s2 -> at_rest s2 ->
  (exists id v, xemits (y_x s1 (Some i)) (y_x s2 (Some i)) (XPoll t id v)) \/ forall id v, ~ lives t (elog (y_x s2 (Some i))) (Some (id, v)).
Proof.
  intros R Hs L Hr H. assert (R2 : yreach s2) by (eapply reach_trans; [eapply reach_step; eauto|exists ls; exact Hr]). destruct (rest_ctx R2 H) as [Eb Ec].
  destruct (@wake_x _ _ _ _ _ Hs L) as [c X]. destruct (@yrun_x (Some i) _ _ _ Hr) as [ls' Y].
  eapply C16_at_rest_polled_since_wake; eauto; try apply (AR_disp H); auto. exact (yreach_x (Some i) R).
Qed.

(** ** Hardware tasks *)
Definition hw_due s i : Prop := y_pend s i = true \/ (In (Some i, None) (vw s) /\ y_ran s i = false).
Ltac undo :=
  repeat match goal with
  | H : bind _ _ = Some _ |- _ => let x := fresh "z" in let E := fresh "E" in apply bind_inv in H as (x & E & H)
  | H : xdo _ _ _ _ = Some _ |- _ => let e := fresh "e" in let X := fresh "X" in apply xdo_inv in H as (e & X & ->)
  | H : mdo _ _ _ = Some _ |- _ => let m := fresh "m" in let M := fresh "M" in apply mdo_inv in H as (m & M & ->)
  | H : Some _ = Some _ |- _ => injection H as <-
  | H : None = Some _ |- _ => discriminate H
  | H : (match ?o with _ => _ end) = Some _ |- _ => destruct o eqn:?
  end; cbn [y_m y_x y_pend y_ran y_call] in *.

Lemma hw_due_step s l s' i t : yreach s -> sa_hw P i = Some t -> step s l = Some s' -> hw_due s i -> hw_due s' i \/ In (Some i, Some t) (vw s').
Proof.
  intros R Eh Hs D. pose proof (ystep_vw _ _ _ Hs) as Hv. unfold ystep in Hs. destruct (m_stack (y_m s)) as [|f fs] eqn:ES; [discriminate|].
  assert (EV : vw s = (f_line f, f_task f) :: map (fun g => (f_line g, f_task g)) fs) by (unfold vw, view_of; now rewrite ES).
  assert (KP : y_pend s' = y_pend s -> y_ran s' = y_ran s -> vw s' = vw s -> hw_due s' i) by (intros E1 E2 E3; unfold hw_due; now rewrite E1, E2, E3).
  destruct l as [j|j| |r|r| | |k u o| |c k u o|c]; cbv beta iota in Hv.
  - left. undo. unfold hw_due in *. change (vw _) with (vw s) at 1. cbn [y_pend y_ran]. destruct D as [D|D]; [|now right]. left. destruct (Nat.eq_dec i j) as [-> |N]; [apply upd_same|now rewrite upd_other].
  - left. destruct Hv as [_ Hv]. unfold hw_due in *. rewrite Hv. unfold take in Hs. destruct (sa_hw P j) eqn:Ej.
    + undo. destruct (Nat.eq_dec i j) as [-> |N]; [right; split; [now left|apply upd_same]|]. rewrite !upd_other by exact N. destruct D as [D|[D1 D2]]; [now left|right; split; [now right|exact D2]].
    + undo. destruct D as [D|[D1 D2]]; [now left|right; split; [now right|exact D2]].
  - destruct (free s _); [|discriminate]. unfold hstep in Hs. destruct (f_task f) eqn:ET; [discriminate|].
    destruct (disp_of P (f_line f)) as [k|] eqn:ED; rewrite ?ET in EV.
    + assert (NL : f_line f <> Some i) by (intros E; rewrite E in ED; unfold disp_of in ED; rewrite Eh in ED; discriminate).
      assert (K : (exists to, vw s' = (f_line f, to) :: map (fun g => (f_line g, f_task g)) fs) \/ vw s' = map (fun g => (f_line g, f_task g)) fs -> y_pend s' = y_pend s -> y_ran s' = y_ran s -> hw_due s' i).
      { intros E1 E2 E3. unfold hw_due in *. rewrite E2, E3. destruct D as [D|[D1 D2]]; [now left|right; split; [|exact D2]]. rewrite EV in D1. destruct D1 as [D1|D1]; [congruence|]. destruct E1 as [[to ->]| ->]; [now right|exact D1]. }
      left. unfold dstep in Hs. undo; apply K; auto; try (left; eexists; unfold vw; cbn [y_m]; exact EV).
      all: apply mview in M as (o1 & to1 & rest & V1 & V2); cbn [y_m] in V1; change (view_of (y_m s)) with (vw s) in V1; rewrite EV in V1; injection V1 as <- <- <-; unfold vw; cbn [y_m].
      all: try (right; tauto). all: left; destruct V2 as (_ & _ & V2); eauto.
    + destruct (f_line f) as [j|] eqn:EL.
      * unfold disp_of in ED. destruct (sa_hw P j) as [u|] eqn:Ej; [|discriminate]. destruct (y_ran s j) eqn:Er.
        -- undo. apply mview in M as (o1 & to1 & rest & V1 & _ & _ & _ & V2). change (view_of (y_m s)) with (vw s) in V1. rewrite EV in V1. injection V1 as <- <- <-. left. unfold hw_due in *. unfold vw at 1. cbn [y_m y_pend y_ran]. rewrite V2.
           destruct D as [D|[D1 D2]]; [now left|right; split; [|exact D2]]. rewrite EV in D1. destruct D1 as [D1|D1]; [injection D1 as ->; congruence|exact D1].
        -- undo. apply mview in M as (o1 & to1 & rest & V1 & _ & _ & V2). change (view_of (y_m s)) with (vw s) in V1. rewrite EV in V1. injection V1 as <- <- <-. unfold hw_due in *. unfold vw. cbn [y_m y_pend y_ran]. rewrite V2.
           destruct (Nat.eq_dec j i) as [-> |N]; [right; left; congruence|left]. destruct D as [D|[D1 D2]]; [now left|right; split; [|now rewrite upd_other by auto]]. rewrite EV in D1. destruct D1 as [D1|D1]; [congruence|now right].
      * undo. left. apply mview in M as (o1 & to1 & rest & V1 & _ & _ & V2). change (view_of (y_m s)) with (vw s) in V1. rewrite EV in V1. injection V1 as <- <- <-. unfold hw_due in *. unfold vw at 1. cbn [y_m y_pend y_ran]. rewrite V2.
        destruct D as [D|[D1 D2]]; [now left|right; split; [|exact D2]]. rewrite EV in D1. destruct D1 as [D1|D1]; [congruence|now right].
  - left. destruct (free s _); [|discriminate]. unfold done in Hs. undo; apply mview in M as (o1 & to1 & rest & V1 & _ & V2); cbn [y_m] in V1; change (view_of (y_m s)) with (vw s) in V1; rewrite EV in V1; injection V1 as <- <- <-; unfold hw_due in *; unfold vw at 1; cbn [y_m y_pend y_ran]; rewrite V2;
      (destruct D as [D|[D1 D2]]; [now left|right; split; [|exact D2]]); rewrite EV in D1; (destruct D1 as [D1|D1]; [congruence|now right]).
  - left. undo; apply KP; auto.
  - left. undo; apply KP; auto.
  - left. undo; apply KP; auto.
  - left. unfold ucall in Hs. undo; apply KP; auto.
  - left. unfold go_on in Hs. undo; apply KP; auto.
  - left. unfold ucall in Hs. undo; apply KP; auto.
  - left. unfold go_on in Hs. undo; apply KP; auto.
Qed.
Lemma rest_ran ls : forall s s' i t, yreach s -> sa_hw P i = Some t -> hw_due s i -> run step s ls = Some s' -> at_rest s' -> exists l1 l2 s1, ls = l1 ++ l2 /\ run step s l1 = Some s1 /\ In (Some i, Some t) (vw s1).
Proof.
  induction ls as [|l ls IH]; simpl; intros s s' i t R Eh D Hr H.
  - injection Hr as <-. exfalso. destruct D as [D|[D _]]; [rewrite (AR_pend H) in D; discriminate|]. destruct (AR_stack H) as (f & E & L & _). unfold vw, view_of in D. rewrite E in D. simpl in D. rewrite L in D. intuition discriminate.
  - destruct (step s l) as [s1|] eqn:E; [|discriminate]. destruct (@hw_due_step _ _ _ _ _ R Eh E D) as [D1|I].
    + destruct (IH s1 s' i t) as (l1 & l2 & s2 & -> & Hl & I); auto; [eapply reach_step; eauto|]. exists (l :: l1), l2, s2. simpl. rewrite E. auto.
    + exists [l], ls, s1. simpl. rewrite E. auto.
Qed.

(** ** Bad polls *)
Lemma bug_where s l s' k : yreach s -> step s l = Some s' -> ebug (y_x s k) = false -> ebug (y_x s' k) = true ->
  exists c t f fs, in_window (y_x s k) c t /\ m_stack (y_m s) = f :: fs /\ f_line f = k /\ f_task f = None /\ own_ctx P s c.
Proof.
  intros R Hs Eb Eb'. pose proof (yreach_x k R) as Rx.
  assert (K : forall l', xs P k (y_x s k) l' = Some (y_x s' k) -> exists c t ts r, dp (y_x s k) = DChk t ts /\ l' = LDisp r /\ in_window (y_x s k) c t).
  { intros l' X. destruct (bug_window l' (EInv_reach Rx) X Eb') as (c & t & ts & r & H1 & H2 & H3 & _). eauto 7. }
  assert (KW : forall c t, in_window (y_x s k) c t -> own_ctx P s c).
  { intros c t (id & v & E). assert (N : ctx (y_x s k) c <> CIdle) by congruence. apply (C_call (CallInv_reach R)) in N. exact (C_ctx (CallInv_reach R) _ N). }
  assert (KU : forall j e l', xs P j (y_x s j) l' = Some e -> updo (y_x s) j e k = y_x s' k -> (forall r, l' <> LDisp r) -> False).
  { intros j e l' X E N. destruct (onat_dec k j) as [<- |D]; [|rewrite updo_other in E by exact D; congruence]. rewrite updo_same in E. subst e. destruct (K _ X) as (c & t & ts & r & _ & Y & _). exact (N r Y). }
  unfold ystep in Hs. destruct (m_stack (y_m s)) as [|f fs] eqn:ES; [discriminate|].
  destruct l as [i|i| |r|r| | |j t o| |c j t o|c].
  - exfalso. undo. congruence.
  - exfalso. unfold take in Hs. undo; [congruence|]. refine (KU _ _ _ X eq_refl _). intros r. destruct (sa_unpend P); discriminate.
  - destruct (free s _); [|discriminate]. unfold hstep in Hs. destruct (f_task f) eqn:ET; [discriminate|].
    destruct (disp_of P (f_line f)) as [j|] eqn:ED.
    + pose proof (disp_of_self _ _ ED) as ->.
      assert (G : forall r s1, xdo P s (f_line f) (LDisp r) = Some s1 -> y_x s' k = y_x s1 k -> exists c t f0 fs0, in_window (y_x s k) c t /\ f :: fs = f0 :: fs0 /\ f_line f0 = k /\ f_task f0 = None /\ own_ctx P s c).
      { intros r s1 X E. apply xdo_inv in X as (e & X & ->). cbn [y_x] in E. destruct (onat_dec k (f_line f)) as [-> |D]; [|rewrite updo_other in E by exact D; congruence].
        rewrite updo_same in E. subst e. destruct (K _ X) as (c & t & ts & r' & _ & _ & W). exists c, t, f, fs. eauto 7. }
      assert (GD : dstep P s (f_line f) false = Some s' -> exists c t f0 fs0, in_window (y_x s k) c t /\ f :: fs = f0 :: fs0 /\ f_line f0 = k /\ f_task f0 = None /\ own_ctx P s c).
      { unfold dstep. intros X. apply bind_inv in X as (z & E & X). apply (G _ _ E). destruct (dp (y_x z (f_line f))); try (now injection X as <-). apply mdo_inv in X as (m & _ & ->). reflexivity. }
      destruct (dp (y_x s (f_line f))); try (destruct (f_line f); exact (GD Hs)); try discriminate.
      destruct (f_line f) as [i|]; exfalso; [undo; congruence|]. apply xdo_inv in Hs as (e & X & ->). refine (KU _ _ _ X eq_refl _). discriminate.
    + exfalso. undo; congruence.
  - exfalso. destruct (free s _); [|discriminate]. unfold done in Hs. destruct (f_task f) as [u|] eqn:ET; [|discriminate]. destruct (f_ents f); [|discriminate]. destruct (disp_of P (f_line f)) as [j|] eqn:ED; [|undo; congruence].
    pose proof (disp_of_self _ _ ED) as ->. undo. destruct (onat_dec k (f_line f)) as [-> |D]; [|rewrite updo_other in Eb' by exact D; congruence]. rewrite updo_same in *. destruct (K _ X) as (c & t & ts & r' & Y & _ & W).
    assert (I : In (f_line f, Some u) (vw s)) by (rewrite <- ET; eapply vw_top; eauto). destruct (R_run (RunInv_reach R) _ _ I ED) as [ts' Z]. unfold dpf in Z. congruence.
  - exfalso. undo; congruence.
  - exfalso. undo; congruence.
  - exfalso. undo; congruence.
  - exfalso. unfold ucall in Hs. undo; (refine (KU _ _ _ X eq_refl _); intros; destruct o; discriminate).
  - exfalso. unfold go_on in Hs. undo; refine (KU _ _ _ X eq_refl _); discriminate.
  - exfalso. unfold ucall in Hs. undo; (refine (KU _ _ _ X eq_refl _); intros; destruct o; discriminate).
  - exfalso. unfold go_on in Hs. undo; refine (KU _ _ _ X eq_refl _); discriminate.
Qed.

Lemma bug_low s l s' k : yreach s -> step s l = Some s' -> ebug (y_x s k) = false -> ebug (y_x s' k) = true ->
  exists c t, in_window (y_x s k) c t /\
    ((exists e, c = ectx e /\ In e (sa_env P)) \/
     exists f above g below, m_stack (y_m s) = f :: above ++ g :: below /\ f_line f = k /\ c = hctx (f_line g) /\ f_task g <> None /\ lprio A (f_line g) < lprio A k).
Proof.
  intros R Hs Eb Eb'. destruct (@bug_where _ _ _ _ R Hs Eb Eb') as (c & t & f & fs & W & ES & L & ET & [O|(o & t' & -> & I)]); exists c + exists (hctx o); exists t; (split; [exact W|]); [now left|right].
  unfold vw, view_of in I. rewrite ES in I. simpl in I. destruct I as [I|I]; [rewrite ET in I; discriminate I|]. apply in_map_iff in I as (g & E & I). injection E as E1 E2. pose proof (sok_reach (yreach_m R)) as K. rewrite ES in K. simpl in K. destruct K as [_ K].
  destruct fs as [|h fs]; [destruct I|]. destruct K as (_ & K & _). pose proof (K g I) as Kg. apply in_split in I as (above & below & Ef). rewrite Ef in ES. exists f, above, g, below. repeat split; [exact ES|exact L|now rewrite E1|congruence|now rewrite <- L].
Qed.
Lemma x_window k (e e' : @ex V) l c t : xs P k e l = Some e' -> in_window e' c t -> in_window e c t \/ exists v, l = LSpawn c t v.
Proof.
  unfold xs, in_window. intros X (id & v & E). pose proof (@x_ctx _ P _ _ _ _ X) as H. unfold xstep in X. destruct (ebug e); [discriminate|].
  destruct l as [c' t' v'|c' t'|c'| | |r]; try (left; rewrite H in E; now eauto).
  - destruct (Nat.eq_dec c c') as [-> |N]; [|left; rewrite H in E by exact N; eauto]. destruct (ctx e c') eqn:Ec; try discriminate. destruct (in_dec _ _ _); [|discriminate]. injection X as <-. unfold do_spawn in E. destruct (running e t'); simpl in E; [congruence|]. rewrite upd_same in E. injection E as -> _ ->. eauto.
  - destruct (Nat.eq_dec c c') as [-> |N]; [|left; rewrite H in E by exact N; eauto]. destruct (ctx e c') eqn:Ec; try discriminate. destruct (in_dec _ _ _); [|discriminate]. injection X as <-. simpl in E. rewrite upd_same in E. discriminate.
  - destruct (Nat.eq_dec c c') as [-> |N]; [|left; rewrite H in E by exact N; eauto]. unfold ctx_step in X. destruct (ctx e c') eqn:Ec; try discriminate; injection X as <-; simpl in E; rewrite upd_same in E; discriminate.
Qed.
Lemma window_step s l s' k c t : step s l = Some s' -> in_window (y_x s' k) c t ->
  in_window (y_x s k) c t \/ (exists v f fs, l = YUser k t (Some v) /\ m_stack (y_m s) = f :: fs /\ c = hctx (f_line f)) \/ (exists e v, l = YEnv e k t (Some v) /\ c = ectx e).
Proof.
  unfold ystep. intros Hs W.
  assert (KU : forall j e l', xs P j (y_x s j) l' = Some e -> in_window (updo (y_x s) j e k) c t -> in_window (y_x s k) c t \/ k = j /\ exists v, l' = LSpawn c t v).
  { intros j e l' X I. destruct (onat_dec k j) as [<- |D]; [|rewrite updo_other in I by exact D; now left]. rewrite updo_same in I. destruct (@x_window _ _ _ _ _ _ X I) as [Y|[v ->]]; eauto. }
  assert (KN : forall j e l', xs P j (y_x s j) l' = Some e -> in_window (updo (y_x s) j e k) c t -> (forall c t v, l' <> LSpawn c t v) -> in_window (y_x s k) c t).
  { intros j e l' X I N. destruct (KU _ _ _ X I) as [Y|(_ & v & Y)]; [exact Y|elim (N _ _ _ Y)]. }
  destruct (m_stack (y_m s)) as [|f fs] eqn:ES; [discriminate|]. destruct l as [i|i| |r|r| | |j u o| |e j u o|e].
  - left. undo. exact W.
  - left. unfold take in Hs. undo; auto. eapply KN; eauto. destruct (sa_unpend P); discriminate.
  - left. unfold hstep, dstep in Hs. undo; auto; eapply KN; eauto; discriminate.
  - left. unfold done in Hs. undo; auto; eapply KN; eauto; discriminate.
  - left. undo. exact W.
  - left. undo. exact W.
  - left. undo. exact W.
  - unfold ucall in Hs. undo. unfold after_call in W. cbn [y_x] in W. destruct (KU _ _ _ X W) as [Y|(-> & v & Y)]; [now left|right; left]. destruct o as [v'|]; [|discriminate Y]. injection Y as <- -> ->. exists v, f, fs. auto.
  - left. unfold go_on in Hs. undo. unfold after_call in W. cbn [y_x] in W. eapply KN; eauto; discriminate.
  - unfold ucall in Hs. undo. unfold after_call in W. cbn [y_x] in W. destruct (KU _ _ _ X W) as [Y|(-> & v & Y)]; [now left|right; right]. destruct o as [v'|]; [|discriminate Y]. injection Y as <- -> ->. eauto.
  - left. unfold go_on in Hs. undo. unfold after_call in W. cbn [y_x] in W. eapply KN; eauto; discriminate.
Qed.
(** Spawns only of tasks whose dispatcher does not preempt the spawner. *)
Definition downward s (l : ylabel V) : Prop :=
  match l with
  | YUser k _ (Some _) => match m_stack (y_m s) with f :: _ => lprio A k <= lprio A (f_line f) | [] => True end
  | YEnv _ _ _ (Some _) => False
  | _ => True
  end.
Lemma downward_ok s : greach step downward (@y_init V B m0 x0) s -> forall k, ebug (y_x s k) = false.
Proof.
  intros Hg. cut (yreach s /\ (forall k c t, in_window (y_x s k) c t -> exists o, c = hctx o /\ lprio A k <= lprio A o) /\ forall k, ebug (y_x s k) = false); [tauto|]. revert s Hg.
  refine (@greach_inv _ _ step _ (fun s => yreach s /\ (forall k c t, in_window (y_x s k) c t -> exists o, c = hctx o /\ lprio A k <= lprio A o) /\ forall k, ebug (y_x s k) = false) _ _ _).
  - split; [apply reach_refl|]. split; [|reflexivity]. intros k c t (id & v & E). discriminate E.
  - intros s l s' (R & HW & Hb) HG Hs. split; [eapply reach_step; eauto|]. split.
    + intros k c t I. destruct (@window_step _ _ _ _ _ _ Hs I) as [Y|[(v & f & fs & -> & ES & ->)|(e & v & -> & _)]]; [eauto| |destruct HG]. simpl in HG. rewrite ES in HG. eauto.
    + intros k. apply not_true_is_false. intros X. destruct (@bug_low _ _ _ _ R Hs (Hb k) X) as (c & t & W & O). destruct (HW _ _ _ W) as (o & E & Le).
      destruct O as [(e & -> & _)|(f & above & g & below & _ & _ & -> & _ & Lt)]; [symmetry in E; exact (hctx_ectx _ _ E)|]. apply hctx_inj in E. rewrite E in Lt. lia.
Qed.
End Final.
