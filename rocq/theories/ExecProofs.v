From Verif Require Import Base LTS ExecModel ExecSpec.
Set Implicit Arguments.

Section Proofs.
Context {V : Type} (zero : bool) (tasks : list nat).
Implicit Types (s : @ex V) (t c id : nat) (v : V).
Notation step := (@xstep V zero tasks).

Ltac ucase := unfold upd in *; repeat match goal with
  | |- context [Nat.eqb ?x ?y] => destruct (Nat.eqb_spec x y); try subst
  | H : context [Nat.eqb ?x ?y] |- _ => destruct (Nat.eqb_spec x y); try subst
  end; simpl in *.
Ltac fin := try solve [eauto 3 | congruence | intuition (try congruence; eauto 3)].

(** The task the dispatcher is working on. *)
Definition working (d : dpc) : option nat := match d with DChk t _ | DIn t _ | DFin t _ => Some t | _ => None end.
Definition inside (d : dpc) : option nat := match d with DIn t _ | DFin t _ => Some t | _ => None end.

Record EInv s : Prop := {
  E_work : forall t, working (dp s) = Some t -> running s t = true;
  E_win : forall c t, in_window s c t -> running s t = true /\ inside (dp s) <> Some t /\ (forall id v, slot s t <> FLive id v);
  E_one : forall c c' t, in_window s c t -> in_window s c' t -> c = c';
  E_live : forall t, running s t = true -> (exists c, in_window s c t) \/ (exists id v, slot s t = FLive id v) \/ exists ts id, dp s = DFin t ts /\ slot s t = FDone id;
  E_dead : forall t, running s t = false -> forall id v, slot s t <> FLive id v;
  E_in : forall t ts, dp s = DIn t ts -> exists id v, slot s t = FLive id v;
  E_fin : forall t ts, dp s = DFin t ts -> exists id, slot s t = FDone id;
  E_tasks : forall c t, busy_with s c t -> In t tasks;
  E_run : forall t, running s t = true -> In t tasks;
  E_pend : forall t, running s t = true -> pending s t = true ->
     zero = true \/ irq s = true \/ In t (ahead (dp s)) \/ exists c, busy_with s c t;
  E_enter : forall ts, dp s = DEnter ts -> ts = tasks
}.

Lemma EInv_new : EInv ex_new.
Proof.
  constructor; simpl; try congruence; try discriminate.
  - intros c t (id & v & H). discriminate.
  - intros c c' t (id & v & H). discriminate.
  - intros c t H. destruct H.
Qed.

Ltac open H := destruct H as [ework ewin eone elive edead ein efin etasks erun epend eenter].

(** accepted spawn *)
Lemma step_alloc s c t v : EInv s -> ctx s c = CIdle -> running s t = false -> In t tasks ->
  EInv (xemit (set_nid (set_ctx (set_running s t true) c (CWrite t (nid s) v)) (S (nid s))) (XAlloc t (nid s) v)).
Proof.
  intros H Hc Hr Ht. open H.
  assert (Hw : working (dp s) <> Some t) by (intros E; apply ework in E; congruence).
  assert (Hi : inside (dp s) <> Some t) by (destruct (dp s); simpl in *; congruence).
  assert (Hnw : forall c', ~ in_window s c' t) by (intros c' X; apply ewin in X as [X _]; congruence).
  assert (W : forall c' t', in_window (xemit (set_nid (set_ctx (set_running s t true) c (CWrite t (nid s) v)) (S (nid s))) (XAlloc t (nid s) v)) c' t' <->
     (c' = c /\ t' = t) \/ (c' <> c /\ in_window s c' t')).
  { intros c' t'. unfold in_window. simpl. ucase; split.
    - intros (i & x & X). injection X; auto.
    - intros [[_ ->]|[X _]]; [eauto|congruence].
    - eauto.
    - intros [[X _]|[_ X]]; [congruence|exact X]. }
  assert (B : forall c' t', busy_with (xemit (set_nid (set_ctx (set_running s t true) c (CWrite t (nid s) v)) (S (nid s))) (XAlloc t (nid s) v)) c' t' <->
     (c' = c /\ t' = t) \/ busy_with s c' t').
  { intros c' t'. unfold busy_with. simpl. ucase; [rewrite Hc|]; intuition congruence. }
  constructor; simpl.
  - intros t' E. ucase; auto.
  - intros c' t' X. apply W in X as [[-> ->]|[Hcc X]].
    + rewrite upd_same. auto.
    + pose proof (ewin _ _ X) as (X1 & X2 & X3). repeat split; auto. ucase; auto.
  - intros c1 c2 t' X1 X2. apply W in X1, X2. destruct X1 as [[-> ->]|[N1 X1]], X2 as [[-> E2]|[N2 X2]]; auto; try (exfalso; eapply Hnw; eauto; fail).
    + subst. exfalso. eapply Hnw; eauto.
    + eauto.
  - intros t' E. ucase.
    + left. exists c. apply W. auto.
    + destruct (elive t' E) as [[c' X]|X]; [|now right]. left. exists c'. apply W. right. split; [|exact X]. intros ->. destruct X as (i & x & X). congruence.
  - intros t' E. ucase; [discriminate|auto].
  - exact ein.
  - exact efin.
  - intros c' t' X. apply B in X as [[-> ->]|X]; eauto.
  - intros t' E. ucase; auto.
  - intros t' E Hp. ucase.
    + right. right. right. exists c. apply B. auto.
    + destruct (epend t' E Hp) as [X|[X|[X|[c' X]]]]; auto. right. right. right. exists c'. apply B. auto.
  - exact eenter.
Qed.

(** Changes that touch only log, [ebug] or [irq] upwards. *)
Lemma EInv_frame s s' : EInv s -> running s' = running s -> pending s' = pending s -> slot s' = slot s -> dp s' = dp s -> ctx s' = ctx s ->
  (irq s = true -> irq s' = true) -> EInv s'.
Proof.
  intros H E1 E2 E3 E4 E5 E6. open H. constructor; unfold in_window, busy_with in *; rewrite ?E1, ?E2, ?E3, ?E4, ?E5; auto.
  intros t Hr Hp. destruct (epend t Hr Hp) as [X|[X|[X|X]]]; auto.
Qed.

(** wake: set_pending *)
Lemma step_wake s c t : EInv s -> ctx s c = CIdle -> In t tasks -> EInv (set_ctx (set_pending s t true) c (CPend t None)).
Proof.
  intros H Hc Ht. open H.
  assert (W : forall c' t', in_window (set_ctx (set_pending s t true) c (CPend t None)) c' t' <-> in_window s c' t').
  { intros c' t'. unfold in_window. simpl. ucase; [rewrite Hc|tauto]. split; intros (i & x & X); discriminate. }
  assert (B : forall c' t', busy_with (set_ctx (set_pending s t true) c (CPend t None)) c' t' <-> (c' = c /\ t' = t) \/ busy_with s c' t').
  { intros c' t'. unfold busy_with. simpl. ucase; [rewrite Hc|]; intuition congruence. }
  constructor; simpl; auto.
  - intros c' t' X. apply W in X. eauto.
  - intros c1 c2 t' X1 X2. apply W in X1, X2. eauto.
  - intros t' E. destruct (elive t' E) as [[c' X]|X]; [left; exists c'; now apply W|now right].
  - intros c' t' X. apply B in X as [[-> ->]|X]; eauto.
  - intros t' E Hp. ucase; [right; right; right; exists c; apply B; auto|].
    destruct (epend t' E Hp) as [X|[X|[X|[c' X]]]]; auto. right. right. right. exists c'. apply B. auto.
Qed.

(** storing the future *)
Lemma step_store s c t id v : EInv s -> ctx s c = CWrite t id v -> EInv (set_ctx (set_slot s t (FLive id v)) c (CSet t id v)).
Proof.
  intros H Hc. open H.
  assert (Hw : in_window s c t) by (exists id, v; auto). destruct (ewin _ _ Hw) as (Hr & Hi & Hnl).
  assert (W : forall c' t', in_window (set_ctx (set_slot s t (FLive id v)) c (CSet t id v)) c' t' <-> c' <> c /\ in_window s c' t').
  { intros c' t'. unfold in_window. simpl. ucase; [|tauto]. split; [intros (i & x & X); discriminate|tauto]. }
  assert (B : forall c' t', busy_with (set_ctx (set_slot s t (FLive id v)) c (CSet t id v)) c' t' <-> busy_with s c' t').
  { intros c' t'. unfold busy_with. simpl. ucase; [rewrite Hc|]; tauto. }
  constructor; simpl; auto.
  - intros c' t' X. apply W in X as [Hcc X]. destruct (ewin _ _ X) as (X1 & X2 & X3). repeat split; auto. ucase; [|auto]. exfalso. apply Hcc. eauto.
  - intros c1 c2 t' X1 X2. apply W in X1 as [_ X1], X2 as [_ X2]. eauto.
  - intros t' E. destruct (Nat.eq_dec t' t) as [->|Htt]; [right; left; rewrite upd_same; eauto|]. rewrite upd_other by assumption.
    destruct (elive t' E) as [[c' X]|X]; [left; exists c'; apply W; split; [|exact X]|now right]. intros ->. destruct X as (i & x & X). congruence.
  - intros t' E i x. ucase; [congruence|auto].
  - intros t' ts E. ucase; [eauto|eauto].
  - intros t' ts E. ucase; [|eauto]. exfalso. apply Hi. rewrite E. reflexivity.
  - intros c' t' X. apply B in X. eauto.
  - intros t' E Hp. destruct (epend t' E Hp) as [X|[X|[X|[c' X]]]]; auto. right. right. right. exists c'. now apply B.
Qed.

(** spawn: set_pending *)
Lemma step_set s c t id v : EInv s -> ctx s c = CSet t id v -> EInv (set_ctx (set_pending s t true) c (CPend t (Some (id, v)))).
Proof.
  intros H Hc. open H.
  assert (W : forall c' t', in_window (set_ctx (set_pending s t true) c (CPend t (Some (id, v)))) c' t' <-> in_window s c' t').
  { intros c' t'. unfold in_window. simpl. ucase; [rewrite Hc|tauto]. split; intros (i & x & X); discriminate. }
  assert (B : forall c' t', busy_with (set_ctx (set_pending s t true) c (CPend t (Some (id, v)))) c' t' <-> busy_with s c' t').
  { intros c' t'. unfold busy_with. simpl. ucase; [rewrite Hc|]; tauto. }
  constructor; simpl; auto.
  - intros c' t' X. apply W in X. eauto.
  - intros c1 c2 t' X1 X2. apply W in X1, X2. eauto.
  - intros t' E. destruct (elive t' E) as [[c' X]|X]; [left; exists c'; now apply W|now right].
  - intros c' t' X. apply B in X. eauto.
  - intros t' E Hp. ucase; [right; right; right; exists c; apply B; unfold busy_with; rewrite Hc; reflexivity|].
    destruct (epend t' E Hp) as [X|[X|[X|[c' X]]]]; auto. right. right. right. exists c'. apply B. auto.
Qed.

(** pend *)
Lemma step_pend s c t o e : EInv s -> ctx s c = CPend t o -> EInv (xemit (set_ctx (set_irq s (if zero then irq s else true)) c CIdle) e).
Proof.
  intros H Hc. open H.
  set (s1 := xemit (set_ctx (set_irq s (if zero then irq s else true)) c CIdle) e).
  assert (W : forall c' t', in_window s1 c' t' <-> in_window s c' t').
  { intros c' t'. unfold in_window. simpl. ucase; [rewrite Hc|tauto]. split; intros (i & x & X); discriminate. }
  assert (B : forall c' t', busy_with s1 c' t' <-> c' <> c /\ busy_with s c' t').
  { intros c' t'. unfold busy_with. simpl. ucase; tauto. }
  subst s1. constructor; simpl; auto.
  - intros c' t' X. apply W in X. eauto.
  - intros c1 c2 t' X1 X2. apply W in X1, X2. eauto.
  - intros t' E. destruct (elive t' E) as [[c' X]|X]; [left; exists c'; now apply W|now right].
  - intros c' t' X. apply B in X as [_ X]. eauto.
  - intros t' E Hp. destruct zero; auto.
Qed.

(** Dispatcher moves that change only its position. *)
Lemma step_move s d : EInv s -> (forall t, working d = Some t -> running s t = true) -> (forall t, inside d <> Some t) ->
  (forall t, inside (dp s) = Some t -> exists id v, slot s t = FLive id v) ->
  (forall t, running s t = true -> pending s t = true -> In t (ahead (dp s)) -> In t (ahead d)) -> (forall ts, d = DEnter ts -> ts = tasks) -> EInv (set_dp s d).
Proof.
  intros H Hw Hi Hin Ha He. open H. constructor; simpl; auto.
  - intros c t X. apply ewin in X as (X1 & X2 & X3). auto.
  - intros t Ht. destruct (elive t Ht) as [X|[X|(ts & id & X & Y)]]; auto. right. left. apply Hin. now rewrite X.
  - intros t ts E. exfalso. apply (Hi t). now rewrite E.
  - intros t ts E. exfalso. apply (Hi t). now rewrite E.
  - intros t Ht Hp. destruct (epend t Ht Hp) as [X|[X|[X|X]]]; auto 6.
Qed.

Lemma EInv_step s l s' : EInv s -> step s l = Some s' -> EInv s'.
Proof.
  intros H Hs. unfold xstep in Hs. destruct (ebug s) eqn:Eb; [discriminate|]. destruct l as [c t v|c t|c| | |r].
  - destruct (ctx s c) eqn:Ec; try discriminate. destruct (in_dec Nat.eq_dec t tasks) as [Ht|Ht]; [|discriminate]. injection Hs as <-.
    unfold do_spawn. destruct (running s t) eqn:Er; [apply EInv_frame with (s := s); auto|]. now apply step_alloc.
  - destruct (ctx s c) eqn:Ec; try discriminate. destruct (in_dec Nat.eq_dec t tasks) as [Ht|Ht]; [|discriminate]. injection Hs as <-. now apply step_wake.
  - unfold ctx_step in Hs. destruct (ctx s c) eqn:Ec; try discriminate; injection Hs as <-.
    + now apply step_store.
    + now apply step_set.
    + eapply step_pend; eauto.
  - destruct (dp s) eqn:Ed; try discriminate. destruct (zero || irq s)%bool; [|discriminate]. injection Hs as <-.
    open H. constructor; simpl; auto; try discriminate.
    + intros c t X. apply ewin in X as (X1 & X2 & X3). repeat split; auto. discriminate.
    + intros t Ht. destruct (elive t Ht) as [X|[X|(ts & id & X & Y)]]; auto. congruence.
  - destruct (dp s) eqn:Ed; try discriminate. destruct (negb zero && irq s)%bool; [|discriminate]. injection Hs as <-.
    apply step_move; auto; try discriminate; rewrite ?Ed; simpl; auto; try discriminate; [tauto|congruence].
  - unfold disp_step in Hs. destruct (dp s) as [|tsE|[|t ts]|t ts|t ts|t ts] eqn:Ed; try discriminate.
    + injection Hs as <-. pose proof (E_enter H Ed); subst tsE. open H. constructor; simpl; auto; try discriminate.
      * intros c t X. apply ewin in X as (X1 & X2 & X3). repeat split; auto. discriminate.
      * intros t Ht. destruct (elive t Ht) as [X|[X|(ts & id & X & Y)]]; auto. congruence.
    + injection Hs as <-. apply step_move; auto; try discriminate; rewrite Ed; simpl; auto; discriminate.
    + injection Hs as <-. apply step_move; auto.
      * intros t'. destruct (running s t) eqn:Er; simpl; [congruence|discriminate].
      * intros t'. destruct (running s t); discriminate.
      * rewrite Ed. discriminate.
      * rewrite Ed. simpl. intros t' Hr _ [<-|Hin]; [rewrite Hr; simpl; auto|destruct (running s t); simpl; auto].
      * intros ts'. destruct (running s t); discriminate.
    + destruct (pending s t) eqn:Ep.
      * destruct (slot s t) as [|id v|id] eqn:Es; injection Hs as <-.
        -- open H. constructor; simpl; auto. intros t' Hr Hp. ucase; [discriminate|]. eauto.
        -- assert (Ht : running s t = true) by (apply (E_work H); now rewrite Ed).
           open H. constructor; simpl; auto.
           ++ congruence.
           ++ intros c t' X. pose proof (ewin _ _ X) as (X1 & X2 & X3). repeat split; auto. intros [= ->]. apply (X3 _ _ Es).
           ++ intros t' Hr. destruct (elive t' Hr) as [X|[X|(ts' & id' & X & Y)]]; auto. congruence.
           ++ intros t' ts' [= -> ->]. eauto.
           ++ discriminate.
           ++ intros t' Hr Hp. ucase; [discriminate|]. destruct (epend t' Hr Hp) as [X|[X|[X|X]]]; auto. right. right. left. rewrite Ed in X. simpl in X. destruct X; [congruence|assumption].
           ++ discriminate.
        -- open H. constructor; simpl; auto. intros t' Hr Hp. ucase; [discriminate|]. eauto.
      * injection Hs as <-. apply step_move; auto; try discriminate; rewrite Ed; simpl; auto; try discriminate.
        intros t' _ Hp [<-|Hin]; [congruence|exact Hin].
    + destruct r.
      * destruct (slot s t) as [|id v|id] eqn:Es; try discriminate. injection Hs as <-.
        assert (Ht : running s t = true) by (apply (E_work H); now rewrite Ed).
        open H. constructor; simpl; auto.
        -- congruence.
        -- intros c t' X. pose proof (ewin _ _ X) as (X1 & X2 & X3). rewrite Ed in X2. repeat split; auto. intros id' v'. ucase; [discriminate|auto].
        -- intros t' Hr. destruct (Nat.eq_dec t' t) as [->|Htt]; [right; right; exists ts, id; rewrite upd_same; auto|]. rewrite upd_other by assumption.
           destruct (elive t' Hr) as [X|[X|(ts' & id' & X & Y)]]; auto. congruence.
        -- intros t' Hr id' v'. ucase; [discriminate|auto].
        -- discriminate.
        -- intros t' ts' [= -> ->]. rewrite upd_same. eauto.
        -- intros t' Hr Hp. rewrite Ed in epend. exact (epend t' Hr Hp).
        -- discriminate.
      * injection Hs as <-. apply step_move; auto; try discriminate; rewrite Ed; simpl; auto; try discriminate.
        intros t' [= <-]. now apply (E_in H) with (ts := ts).
    + destruct (slot s t) as [|id v|id] eqn:Es; try discriminate. injection Hs as <-.
      assert (Ht : running s t = true) by (apply (E_work H); now rewrite Ed).
      open H.
      assert (Hnw : forall c, ~ in_window s c t) by (intros c X; destruct (ewin _ _ X) as (_ & X2 & _); apply X2; now rewrite Ed).
      constructor; simpl; auto; try discriminate.
      * intros c t' X. pose proof (ewin _ _ X) as (X1 & X2 & X3). repeat split; auto; [|discriminate]. ucase; [|auto]. exfalso. eapply Hnw; eauto.
      * intros t' Hr. ucase; [discriminate|]. destruct (elive t' Hr) as [X|[X|(ts' & id' & X & Y)]]; auto. congruence.
      * intros t' Hr id' v'. ucase; [congruence|auto].
      * intros t' Hr. ucase; [discriminate|auto].
      * intros t' Hr Hp. ucase; [discriminate|]. rewrite Ed in epend. exact (epend t' Hr Hp).
Qed.

Lemma EInv_reach s : xreach zero tasks s -> EInv s.
Proof. apply reach_inv; [apply EInv_new|apply EInv_step]. Qed.

(** ** Histories *)
Definition matches s t (o : option (nat * V)) : Prop :=
  match o with
  | None => running s t = false
  | Some (id, v) => running s t = true /\ ((exists c, ctx s c = CWrite t id v) \/ slot s t = FLive id v \/ slot s t = FDone id /\ exists ts, dp s = DFin t ts)
  end.
Definition HInv s : Prop := forall t, exists o, lives t (elog s) o /\ matches s t o.

Lemma HInv_step s l s' : EInv s -> HInv s -> step s l = Some s' -> HInv s'.
Proof.
  intros HE H Hs t0. destruct (H t0) as (o & Hl & Hm). unfold xstep in Hs. destruct (ebug s) eqn:Eb; [discriminate|]. destruct l as [c t v|c t|c| | |r].
  - destruct (ctx s c) eqn:Ec; try discriminate. destruct (in_dec Nat.eq_dec t tasks) as [Ht|Ht]; [|discriminate]. injection Hs as <-.
    unfold do_spawn. destruct (running s t) eqn:Er.
    + exists o. split; [|exact Hm]. simpl. destruct (Nat.eq_dec t t0) as [->|N]; [|now apply lv_other].
      destruct o as [[id x]|]; [now apply lv_err|simpl in Hm; congruence].
    + destruct (Nat.eq_dec t t0) as [->|N].
      * assert (o = None) as -> by (destruct o as [[id x]|]; [destruct Hm; congruence|reflexivity]).
        exists (Some (nid s, v)). simpl. split; [now apply lv_alloc|]. rewrite upd_same. split; [reflexivity|]. left. exists c. now rewrite upd_same.
      * exists o. simpl. split; [now apply lv_other|]. destruct o as [[id x]|]; simpl in *.
        -- rewrite upd_other by auto. destruct Hm as [Hr [[c' Hc]|Hm]]; (split; [exact Hr|]); [left; exists c'; rewrite upd_other; [exact Hc|congruence]|auto].
        -- now rewrite upd_other by auto.
  - destruct (ctx s c) eqn:Ec; try discriminate. destruct (in_dec Nat.eq_dec t tasks) as [Ht|Ht]; [|discriminate]. injection Hs as <-.
    exists o. simpl. split; [exact Hl|]. destruct o as [[id x]|]; simpl in *; auto.
    destruct Hm as [Hr [[c' Hc]|Hm]]; (split; [exact Hr|]); [left; exists c'; rewrite upd_other; [exact Hc|congruence]|auto].
  - unfold ctx_step in Hs. destruct (ctx s c) eqn:Ec; try discriminate; injection Hs as <-.
    + exists o. simpl. split; [exact Hl|]. destruct o as [[id' x]|]; simpl in *; auto.
      destruct Hm as [Hr [[c' Hc]|Hm]]; (split; [exact Hr|]).
      * destruct (Nat.eq_dec c' c) as [->|N]; [|left; exists c'; now rewrite upd_other].
        rewrite Ec in Hc. injection Hc as -> -> ->. right. left. now rewrite upd_same.
      * destruct (Nat.eq_dec t0 t) as [->|N]; [|right; rewrite upd_other by assumption; exact Hm].
        exfalso. destruct (E_win HE (c := c) (t := t)) as (_ & X2 & X3); [eexists; eexists; eauto|].
        destruct Hm as [Hm|[_ [ts Hm]]]; [exact (X3 _ _ Hm)|]. apply X2. now rewrite Hm.
    + exists o. simpl. split; [exact Hl|]. destruct o as [[id' x]|]; simpl in *; auto.
      destruct Hm as [Hr [[c' Hc]|Hm]]; (split; [exact Hr|]); [left; exists c'; rewrite upd_other; [exact Hc|congruence]|auto].
    + exists o. simpl. split; [apply lv_other; [destruct o0 as [[]|]; exact I|exact Hl]|]. destruct o as [[id' x]|]; simpl in *; auto.
      destruct Hm as [Hr [[c' Hc]|Hm]]; (split; [exact Hr|]); [left; exists c'; rewrite upd_other; [exact Hc|congruence]|auto].
  - destruct (dp s) eqn:Ed; try discriminate. destruct (zero || irq s)%bool; [|discriminate]. injection Hs as <-.
    exists o. simpl. split; [exact Hl|]. destruct o as [[id x]|]; simpl in *; auto.
    destruct Hm as [Hr [X|[X|[_ [ts X]]]]]; (split; [exact Hr|]); auto. congruence.
  - destruct (dp s) eqn:Ed; try discriminate. destruct (negb zero && irq s)%bool; [|discriminate]. injection Hs as <-.
    exists o. simpl. split; [exact Hl|]. destruct o as [[id x]|]; simpl in *; auto.
    destruct Hm as [Hr [X|[X|[_ [ts X]]]]]; (split; [exact Hr|]); auto. congruence.
  - unfold disp_step in Hs. destruct (dp s) as [|tsE|[|t ts]|t ts|t ts|t ts] eqn:Ed; try discriminate.
    + injection Hs as <-. exists o. simpl. split; [exact Hl|]. destruct o as [[id x]|]; simpl in *; auto. destruct Hm as [Hr [X|[X|[_ [ts X]]]]]; (split; [exact Hr|]); auto. congruence.
    + injection Hs as <-. exists o. simpl. split; [exact Hl|]. destruct o as [[id x]|]; simpl in *; auto. destruct Hm as [Hr [X|[X|[_ [ts X]]]]]; (split; [exact Hr|]); auto. congruence.
    + injection Hs as <-. exists o. simpl. split; [exact Hl|]. destruct o as [[id x]|]; simpl in *; auto. destruct Hm as [Hr [X|[X|[_ [ts' X]]]]]; (split; [exact Hr|]); auto. congruence.
    + destruct (pending s t) eqn:Ep.
      * destruct (slot s t) as [|id v|id] eqn:Es; injection Hs as <-.
        -- exists o. simpl. split; [exact Hl|]. destruct o as [[id x]|]; simpl in *; auto.
        -- exists o. simpl. destruct (Nat.eq_dec t t0) as [->|N].
           ++ destruct o as [[id' x]|]; [|simpl in Hm; rewrite (E_work HE (t := t0)) in Hm; [discriminate|now rewrite Ed]].
              destruct Hm as [Hr [[c' X]|[X|[_ [ts' X]]]]]; [|rewrite Es in X; injection X as -> ->; split; [now apply lv_poll|split; auto]|congruence].
              exfalso. destruct (E_win HE (c := c') (t := t0)) as (_ & _ & X3); [eexists; eexists; eauto|]. exact (X3 _ _ Es).
           ++ split; [now apply lv_other|]. destruct o as [[id' x]|]; simpl in *; auto. destruct Hm as [Hr [X|[X|[_ [ts' X]]]]]; (split; [exact Hr|]); auto. congruence.
        -- exists o. simpl. split; [exact Hl|]. destruct o as [[id' x]|]; simpl in *; auto.
      * injection Hs as <-. exists o. simpl. split; [exact Hl|]. destruct o as [[id x]|]; simpl in *; auto. destruct Hm as [Hr [X|[X|[_ [ts' X]]]]]; (split; [exact Hr|]); auto. congruence.
    + destruct r.
      * destruct (slot s t) as [|id v|id] eqn:Es; try discriminate. injection Hs as <-.
        exists o. simpl. split; [exact Hl|]. destruct o as [[id' x]|]; simpl in *; auto.
        destruct Hm as [Hr [X|[X|[_ [ts' X]]]]]; (split; [exact Hr|]); auto; [|congruence].
        destruct (Nat.eq_dec t0 t) as [->|N]; [right; right; rewrite upd_same; split; [congruence|eauto]|right; left; now rewrite upd_other].
      * injection Hs as <-. exists o. simpl. split; [exact Hl|]. destruct o as [[id x]|]; simpl in *; auto. destruct Hm as [Hr [X|[X|[_ [ts' X]]]]]; (split; [exact Hr|]); auto. congruence.
    + destruct (slot s t) as [|id v|id] eqn:Es; try discriminate. injection Hs as <-.
      destruct (Nat.eq_dec t t0) as [->|N].
      * exists None. simpl. rewrite upd_same. split; [|reflexivity].
        destruct o as [[id' x]|]; [|simpl in Hm; rewrite (E_work HE (t := t0)) in Hm; [discriminate|now rewrite Ed]].
        destruct Hm as [Hr [[c' X]|[X|[X _]]]]; [|congruence|rewrite Es in X; injection X as ->; eapply lv_end; eauto].
        exfalso. destruct (E_win HE (c := c') (t := t0)) as (_ & X2 & _); [eexists; eexists; eauto|]. apply X2. now rewrite Ed.
      * exists o. simpl. split; [now apply lv_other|]. destruct o as [[id' x]|]; simpl in *; rewrite upd_other by auto; auto.
        destruct Hm as [Hr [X|[X|[_ [ts' X]]]]]; (split; [exact Hr|]); auto. congruence.
Qed.

Lemma HInv_reach s : xreach zero tasks s -> HInv s.
Proof.
  intros Hr. enough (EInv s /\ HInv s) by tauto. revert s Hr. apply reach_inv.
  - split; [apply EInv_new|]. intros t. exists None. split; constructor.
  - intros s1 l s2 [H1 H2] Hs. split; [eapply EInv_step; eauto|eapply HInv_step; eauto].
Qed.

(** ** Every accepted instance is polled or about to be. *)
Definition PInv s : Prop := forall t id v, In (XAlloc t id v) (elog s) ->
  In (XPoll t id v) (elog s) \/ (exists c, ctx s c = CWrite t id v) \/
  (slot s t = FLive id v /\ running s t = true /\ ((exists c, ctx s c = CSet t id v) \/ pending s t = true)).
(** Instances about to return from [spawn] were accepted. *)
Definition OInv s : Prop := (forall c t id v, ctx s c = CWrite t id v \/ ctx s c = CSet t id v -> In (XAlloc t id v) (elog s)) /\
  (forall c t id v, ctx s c = CPend t (Some (id, v)) \/ In (XOk c t id v) (elog s) -> In (XAlloc t id v) (elog s) /\ forall c', ctx s c' <> CWrite t id v /\ ctx s c' <> CSet t id v) /\
  (forall t id v, In (XAlloc t id v) (elog s) -> id < nid s) /\
  (forall c t id v c' t' v', ctx s c = CWrite t id v \/ ctx s c = CSet t id v -> ctx s c' = CWrite t' id v' \/ ctx s c' = CSet t' id v' -> c = c').

Lemma OInv_step s l s' : OInv s -> step s l = Some s' -> OInv s'.
Proof.
  intros (O1 & O2 & O3 & O4) Hs. unfold xstep in Hs. destruct (ebug s) eqn:Eb; [discriminate|]. destruct l as [c t v|c t|c| | |r].
  - destruct (ctx s c) eqn:Ec; try discriminate. destruct (in_dec Nat.eq_dec t tasks) as [Ht|Ht]; [|discriminate]. injection Hs as <-.
    unfold do_spawn. destruct (running s t) eqn:Er.
    + unfold OInv. simpl. repeat split.
      * intros. apply in_app_iff. left. eauto.
      * apply in_app_iff. left. destruct H as [H|H]; [|apply in_app_iff in H as [H|[H|[]]]; [|discriminate]]; eapply O2; eauto.
      * destruct H as [H|H]; [|apply in_app_iff in H as [H|[H|[]]]; [|discriminate]]; eapply O2; eauto.
      * destruct H as [H|H]; [|apply in_app_iff in H as [H|[H|[]]]; [|discriminate]]; eapply O2; eauto.
      * intros t' id v' H. apply in_app_iff in H as [H|[H|[]]]; [eauto|discriminate].
      * exact O4.
    + assert (Hn : forall c' t' v', ctx s c' <> CWrite t' (nid s) v' /\ ctx s c' <> CSet t' (nid s) v').
      { intros c' t' v'. split; intros X; assert (X' : nid s < nid s) by (eapply O3; eapply O1; eauto); lia. }
      unfold OInv. simpl. split; [|split; [|split]].
      * intros c' t' id v' H. apply in_app_iff. ucase; [destruct H as [H|H]; [injection H as <- <- <-; right; now left|discriminate]|left; eauto].
      * intros c' t' id v' H. 
        assert (H' : ctx s c' = CPend t' (Some (id, v')) \/ In (XOk c' t' id v') (elog s)).
        { destruct H as [H|H]; [ucase; [discriminate|auto]|]. apply in_app_iff in H as [H|[H|[]]]; [auto|discriminate]. }
        destruct (O2 _ _ _ _ H') as [Ha Hb]. clear H H'. split; [apply in_app_iff; now left|]. intros c''. ucase; [|apply Hb].
        split; [|discriminate]. intros [= -> <- ->]. apply O3 in Ha. lia.
      * intros t' id v' H. apply in_app_iff in H as [H|[H|[]]]; [apply O3 in H; lia|injection H as <- <- <-; lia].
      * intros c1 t1 id v1 c2 t2 v2 H1 H2. ucase; auto.
        -- destruct H2 as [H2|H2]; [|discriminate]. injection H2 as <- <- <-. exfalso. destruct (Hn c1 t1 v1) as [? ?]. tauto.
        -- destruct H1 as [H1|H1]; [|discriminate]. injection H1 as <- <- <-. exfalso. destruct (Hn c2 t2 v2) as [? ?]. tauto.
        -- eauto.
  - destruct (ctx s c) eqn:Ec; try discriminate. destruct (in_dec Nat.eq_dec t tasks) as [Ht|Ht]; [|discriminate]. injection Hs as <-.
    unfold OInv. simpl. split; [|split; [|split]]; auto.
    + intros c' t' id v' H. ucase; [destruct H; discriminate|eauto].
    + intros c' t' id v' H. assert (H' : ctx s c' = CPend t' (Some (id, v')) \/ In (XOk c' t' id v') (elog s)) by (destruct H as [H|H]; [ucase; [discriminate|auto]|auto]).
      destruct (O2 _ _ _ _ H') as [Ha Hb]. clear H H'. split; [auto|]. intros c''. ucase; [split; discriminate|apply Hb].
    + intros c1 t1 id v1 c2 t2 v2 H1 H2. ucase; auto; try (destruct H1; discriminate); try (destruct H2; discriminate). eauto.
  - unfold ctx_step in Hs. destruct (ctx s c) eqn:Ec; try discriminate; injection Hs as <-.
    + unfold OInv. simpl. split; [|split; [|split]]; auto.
      * intros c' t' id' v' H. ucase; [destruct H as [H|H]; [discriminate|injection H as <- <- <-; eauto]|eauto].
      * intros c' t' id' v' H. assert (H' : ctx s c' = CPend t' (Some (id', v')) \/ In (XOk c' t' id' v') (elog s)) by (destruct H as [H|H]; [ucase; [discriminate|auto]|auto]).
        destruct (O2 _ _ _ _ H') as [Ha Hb]. clear H H'. split; [auto|]. intros c''. ucase; [split; [discriminate|]|apply Hb]. intros [= -> -> ->]. destruct (Hb c) as [X _]. auto.
      * intros c1 t1 id1 v1 c2 t2 v2 H1 H2. ucase; auto.
        -- destruct H2 as [H2|H2]; [discriminate|]. injection H2 as -> -> ->. apply (O4 c1 t1 id1 v1 c t2 v2); auto.
        -- destruct H1 as [H1|H1]; [discriminate|]. injection H1 as -> -> ->. apply (O4 c t1 id1 v1 c2 t2 v2); auto.
        -- eauto.
    + unfold OInv. simpl. split; [|split; [|split]]; auto.
      * intros c' t' id' v' H. ucase; [destruct H; discriminate|eauto].
      * intros c' t' id' v' H.
        assert (H' : (c' = c /\ t' = t /\ id' = id /\ v' = v) \/ ctx s c' = CPend t' (Some (id', v')) \/ In (XOk c' t' id' v') (elog s)) by (destruct H as [H|H]; [ucase; [injection H as <- <- <-; auto|auto]|auto]).
        destruct H' as [(-> & -> & -> & ->)|H'].
        -- clear H. split; [eauto|]. intros c''. ucase; [split; discriminate|]. split; intros X; apply n; [apply (O4 c'' t id v c t v)|apply (O4 c'' t id v c t v)]; auto.
        -- destruct (O2 _ _ _ _ H') as [Ha Hb]. clear H H'. split; [auto|]. intros c''. ucase; [split; discriminate|apply Hb].
      * intros c1 t1 id1 v1 c2 t2 v2 H1 H2. ucase; auto; try (destruct H1; discriminate); try (destruct H2; discriminate). eauto.
    + unfold OInv. simpl. split; [|split; [|split]]; auto.
      * intros c' t' id' v' H. apply in_app_iff. left. ucase; [destruct H; discriminate|eauto].
      * intros c' t' id' v' H.
        assert (H' : exists c'', ctx s c'' = CPend t' (Some (id', v')) \/ In (XOk c'' t' id' v') (elog s)).
        { destruct H as [H|H]; [ucase; [discriminate|eauto]|]. apply in_app_iff in H as [H|[H|[]]]; [eauto|]. destruct o as [[i x]|]; [|discriminate].
          injection H as <- <- <- <-. eauto. }
        destruct H' as [c'' H']. destruct (O2 _ _ _ _ H') as [Ha Hb]. clear H H'. split; [apply in_app_iff; now left|]. intros c3. ucase; [split; discriminate|apply Hb].
      * intros t' id' v' H. apply in_app_iff in H as [H|[H|[]]]; [eauto|]. destruct o as [[]|]; discriminate.
      * intros c1 t1 id1 v1 c2 t2 v2 H1 H2. ucase; auto; try (destruct H1; discriminate); try (destruct H2; discriminate). eauto.
  - destruct (dp s) eqn:Ed; try discriminate. destruct (zero || irq s)%bool; [|discriminate]. injection Hs as <-. repeat split; simpl; auto; eapply O2; eauto.
  - destruct (dp s) eqn:Ed; try discriminate. destruct (negb zero && irq s)%bool; [|discriminate]. injection Hs as <-. repeat split; simpl; auto; eapply O2; eauto.
  - assert (F : forall e, ctx s' = ctx s -> nid s' = nid s -> elog s' = elog s ++ e -> (forall x, In x e -> match x with XAlloc _ _ _ | XOk _ _ _ _ => False | _ => True end) -> OInv s').
    { intros e E1 E2 E3 He. unfold OInv. rewrite E1, E2, E3. split; [|split; [|split]]; auto.
      - intros. apply in_app_iff. left. eauto.
      - intros c t id v H. assert (H' : ctx s c = CPend t (Some (id, v)) \/ In (XOk c t id v) (elog s)).
        { destruct H as [H|H]; [auto|]. apply in_app_iff in H as [H|H]; [auto|]. apply He in H. destruct H. }
        destruct (O2 _ _ _ _ H') as [Ha Hb]. clear H H'. split; [apply in_app_iff; now left|exact Hb].
      - intros t id v H. apply in_app_iff in H as [H|H]; [eauto|]. apply He in H. destruct H. }
    unfold disp_step in Hs. destruct (dp s) as [|tsE|[|t ts]|t ts|t ts|t ts] eqn:Ed; try discriminate.
    + injection Hs as <-. apply (F []); simpl; rewrite ?app_nil_r; auto. intros x [].
    + injection Hs as <-. apply (F []); simpl; rewrite ?app_nil_r; auto. intros x [].
    + injection Hs as <-. apply (F []); simpl; rewrite ?app_nil_r; auto. intros x [].
    + destruct (pending s t); [destruct (slot s t)|]; injection Hs as <-.
      * apply (F []); simpl; rewrite ?app_nil_r; auto. intros x [].
      * eapply F; try reflexivity. intros x [<-|[]]. exact I.
      * apply (F []); simpl; rewrite ?app_nil_r; auto. intros x [].
      * apply (F []); simpl; rewrite ?app_nil_r; auto. intros x [].
    + destruct r; [destruct (slot s t); try discriminate|]; injection Hs as <-; apply (F []); simpl; rewrite ?app_nil_r; auto; intros x [].
    + destruct (slot s t); try discriminate. injection Hs as <-. eapply F; try reflexivity. intros x [<-|[]]. exact I.
Qed.

(** The instance inside [poll] has been polled. *)
Definition QInv s : Prop := forall t ts id v, dp s = DIn t ts -> slot s t = FLive id v -> In (XPoll t id v) (elog s).
Lemma QInv_step s l s' : EInv s -> QInv s -> step s l = Some s' -> QInv s'.
Proof.
  intros HE H Hs t0 ts0 id0 v0 Hd Hl. unfold xstep in Hs. destruct (ebug s) eqn:Eb; [discriminate|]. destruct l as [c t v|c t|c| | |r].
  - destruct (ctx s c) eqn:Ec; try discriminate. destruct (in_dec Nat.eq_dec t tasks) as [Ht|Ht]; [|discriminate]. injection Hs as <-.
    unfold do_spawn in *. destruct (running s t) eqn:Er; simpl in *; apply in_app_iff; left; eauto.
  - destruct (ctx s c) eqn:Ec; try discriminate. destruct (in_dec Nat.eq_dec t tasks) as [Ht|Ht]; [|discriminate]. injection Hs as <-. simpl in *. eauto.
  - unfold ctx_step in Hs. destruct (ctx s c) eqn:Ec; try discriminate; injection Hs as <-; simpl in *; eauto.
    + destruct (Nat.eq_dec t0 t) as [->|N]; [|rewrite upd_other in Hl by assumption; eauto].
      exfalso. destruct (E_win HE (c := c) (t := t)) as (_ & X2 & _); [eexists; eexists; eauto|]. apply X2. now rewrite Hd.
    + apply in_app_iff. left. eauto.
  - destruct (dp s) eqn:Ed; try discriminate. destruct (zero || irq s)%bool; [|discriminate]. injection Hs as <-. discriminate.
  - destruct (dp s) eqn:Ed; try discriminate. destruct (negb zero && irq s)%bool; [|discriminate]. injection Hs as <-. discriminate.
  - unfold disp_step in Hs. destruct (dp s) as [|tsE|[|t ts]|t ts|t ts|t ts] eqn:Ed; try discriminate.
    + injection Hs as <-. discriminate.
    + injection Hs as <-. discriminate.
    + injection Hs as <-. simpl in Hd. destruct (running s t); discriminate.
    + destruct (pending s t) eqn:Ep; [destruct (slot s t) as [|id v|id] eqn:Es|]; injection Hs as <-; simpl in *; try congruence.
      injection Hd as -> ->. rewrite Es in Hl. injection Hl as -> ->. apply in_app_iff. right. now left.
    + destruct r; [destruct (slot s t) as [|id v|id] eqn:Es; try discriminate|]; injection Hs as <-; discriminate.
    + destruct (slot s t) as [|id v|id] eqn:Es; try discriminate. injection Hs as <-. discriminate.
Qed.

Lemma PInv_step s l s' : EInv s -> QInv s -> PInv s -> step s l = Some s' -> ebug s' = false -> PInv s'.
Proof.
  intros HE HQ H Hs Hb' t0 id0 v0 Hin. unfold xstep in Hs. destruct (ebug s) eqn:Eb; [discriminate|]. destruct l as [c t v|c t|c| | |r].
  - destruct (ctx s c) eqn:Ec; try discriminate. destruct (in_dec Nat.eq_dec t tasks) as [Ht|Ht]; [|discriminate]. injection Hs as <-.
    unfold do_spawn in *. destruct (running s t) eqn:Er; simpl in *.
    + apply in_app_iff in Hin as [Hin|[Hin|[]]]; [|discriminate]. destruct (H _ _ _ Hin) as [X|X]; [left; apply in_app_iff; now left|now right].
    + apply in_app_iff in Hin as [Hin|[Hin|[]]].
      * destruct (H _ _ _ Hin) as [X|[[c' X]|(X & Y & Z)]]; [left; apply in_app_iff; now left|right; left; exists c'; rewrite upd_other; [exact X|congruence]|].
        right. right. split; [exact X|]. split; [ucase; auto|]. destruct Z as [[c' Z]|Z]; [left; exists c'; rewrite upd_other; [exact Z|congruence]|now right].
      * injection Hin as <- <- <-. right. left. exists c. now rewrite upd_same.
  - destruct (ctx s c) eqn:Ec; try discriminate. destruct (in_dec Nat.eq_dec t tasks) as [Ht|Ht]; [|discriminate]. injection Hs as <-. simpl in *.
    destruct (H _ _ _ Hin) as [X|[[c' X]|(X & Y & Z)]]; [now left|right; left; exists c'; rewrite upd_other; [exact X|congruence]|].
    right. right. repeat split; auto. destruct Z as [[c' Z]|Z]; [left; exists c'; rewrite upd_other; [exact Z|congruence]|right; ucase; auto].
  - unfold ctx_step in Hs. destruct (ctx s c) eqn:Ec; try discriminate; injection Hs as <-; simpl in *.
    + destruct (H _ _ _ Hin) as [X|[[c' X]|(X & Y & Z)]]; [now left| |].
      * destruct (Nat.eq_dec c' c) as [->|N]; [|right; left; exists c'; now rewrite upd_other].
        rewrite Ec in X. injection X as -> -> ->. right. right. rewrite upd_same. split; [reflexivity|]. split; [|left; exists c; now rewrite upd_same].
        apply (E_win HE (c := c)). eexists; eexists; eauto.
      * right. right. assert (t0 <> t).
        { intros ->. destruct (E_win HE (c := c) (t := t)) as (_ & _ & X3); [eexists; eexists; eauto|]. exact (X3 _ _ X). }
        rewrite upd_other by assumption. repeat split; auto. destruct Z as [[c' Z]|Z]; [left; exists c'; rewrite upd_other; [exact Z|congruence]|now right].
    + destruct (H _ _ _ Hin) as [X|[[c' X]|(X & Y & Z)]]; [now left|right; left; exists c'; rewrite upd_other; [exact X|congruence]|].
      right. right. repeat split; auto. destruct Z as [[c' Z]|Z]; [|right; ucase; auto].
      destruct (Nat.eq_dec c' c) as [->|N]; [|left; exists c'; now rewrite upd_other]. rewrite Ec in Z. injection Z as -> -> ->. right. now rewrite upd_same.
    + assert (Hin' : In (XAlloc t0 id0 v0) (elog s)) by (apply in_app_iff in Hin as [Hin|[Hin|[]]]; [exact Hin|destruct o as [[]|]; discriminate]).
      destruct (H _ _ _ Hin') as [X|[[c' X]|(X & Y & Z)]]; [left; apply in_app_iff; now left|right; left; exists c'; rewrite upd_other; [exact X|congruence]|].
      right. right. repeat split; auto. destruct Z as [[c' Z]|Z]; [left; exists c'; rewrite upd_other; [exact Z|congruence]|now right].
  - destruct (dp s) eqn:Ed; try discriminate. destruct (zero || irq s)%bool; [|discriminate]. injection Hs as <-. simpl in *. auto.
  - destruct (dp s) eqn:Ed; try discriminate. destruct (negb zero && irq s)%bool; [|discriminate]. injection Hs as <-. simpl in *. auto.
  - unfold disp_step in Hs. destruct (dp s) as [|tsE|[|t ts]|t ts|t ts|t ts] eqn:Ed; try discriminate.
    + injection Hs as <-. simpl in *. auto.
    + injection Hs as <-. simpl in *. auto.
    + injection Hs as <-. simpl in *. auto.
    + destruct (pending s t) eqn:Ep.
      * destruct (slot s t) as [|id v|id] eqn:Es; injection Hs as <-; simpl in *; try discriminate.
        assert (Hin' : In (XAlloc t0 id0 v0) (elog s)) by (apply in_app_iff in Hin as [Hin|[Hin|[]]]; [exact Hin|discriminate]).
        destruct (H _ _ _ Hin') as [X|[[c' X]|(X & Y & Z)]]; [left; apply in_app_iff; now left|eauto|].
        destruct (Nat.eq_dec t0 t) as [->|N].
        -- left. apply in_app_iff. right. left. rewrite Es in X. injection X as -> ->. reflexivity.
        -- right. right. rewrite upd_other by assumption. auto.
      * injection Hs as <-. simpl in *. auto.
    + destruct r.
      * destruct (slot s t) as [|id v|id] eqn:Es; try discriminate. injection Hs as <-. simpl in *.
        destruct (H _ _ _ Hin) as [X|[X|(X & Y & Z)]]; auto. destruct (Nat.eq_dec t0 t) as [->|N]; [|right; right; now rewrite upd_other].
        left. rewrite Es in X. injection X as -> ->. eapply HQ; eauto.
      * injection Hs as <-. simpl in *. auto.
    + destruct (slot s t) as [|id v|id] eqn:Es; try discriminate. injection Hs as <-. simpl in *.
      assert (Hin' : In (XAlloc t0 id0 v0) (elog s)) by (apply in_app_iff in Hin as [Hin|[Hin|[]]]; [exact Hin|discriminate]).
      destruct (H _ _ _ Hin') as [X|[[c' X]|(X & Y & Z)]]; [left; apply in_app_iff; now left|eauto|].
      right. right. repeat split; auto. ucase; [congruence|auto].
Qed.

Lemma bug_stuck s l s' : step s l = Some s' -> ebug s = false.
Proof. unfold xstep. destruct (ebug s); [discriminate|reflexivity]. Qed.

Lemma OInv_reach s : xreach zero tasks s -> OInv s.
Proof.
  apply reach_inv; [|apply OInv_step]. unfold OInv. simpl. repeat split; intros; try (intuition discriminate).
Qed.

Lemma PInv_reach s : xreach zero tasks s -> ebug s = false -> PInv s.
Proof.
  intros Hr. enough (EInv s /\ QInv s /\ (ebug s = false -> PInv s)) by tauto. revert s Hr. apply reach_inv.
  - split; [apply EInv_new|]. split; [intros t ts id v H; discriminate|]. intros _ t id v [].
  - intros s l s' (H1 & H2 & H3) Hs. split; [eapply EInv_step; eauto|]. split; [eapply QInv_step; eauto|]. intros Hb.
    eapply PInv_step; eauto. apply H3. eapply bug_stuck; eauto.
Qed.
End Proofs.
