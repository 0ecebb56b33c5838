(** C73: the software tasks of one priority take turns.
    The executor and its dispatcher: ExecModel.v; the vocabulary of its log: ExecSpec.v. *)
From Verif Require Import Base LTS ExecModel ExecSpec ExecProofs ExecProgress PropertiesExec.
Set Implicit Arguments.

(** How often task [t] is polled in a log. *)
Definition polls {V} (t : nat) (es : list (@xevent V)) : nat :=
  length (filter (fun e => match e with XPoll u _ _ => u =? t | _ => false end) es).
Definition all_polls {V} (es : list (@xevent V)) : nat := length (filter (fun e => match e with XPoll _ _ _ => true | _ => false end) es).

Section Turns.
Context {V : Type} (zero : bool) (tasks : list nat) (Hnd : NoDup tasks).
Notation step := (@xstep V zero tasks).
Implicit Types (s : @ex V).

Lemma polls_app t (l l' : list (@xevent V)) : polls t (l ++ l') = polls t l + polls t l'.
Proof. unfold polls. now rewrite filter_app, app_length. Qed.

(** A pass works through the rest of the list of tasks. *)
Lemma ahead_suffix s : xreach zero tasks s -> exists pre, tasks = pre ++ ahead (dp s).
Proof.
  refine (@reach_inv _ _ step (fun s => exists pre, tasks = pre ++ ahead (dp s)) _ _ _ s).
  - exists tasks. simpl. now rewrite app_nil_r.
  - clear s. intros s l s' [pre E] H. unfold xstep in H. destruct (ebug s); [discriminate|]. destruct l as [c t v|c t|c| | |r].
    + destruct (ctx s c); try discriminate. destruct (in_dec Nat.eq_dec t tasks); [|discriminate]. injection H as <-. unfold do_spawn. destruct (running s t); simpl; eauto.
    + destruct (ctx s c); try discriminate. destruct (in_dec Nat.eq_dec t tasks); [|discriminate]. injection H as <-. simpl. eauto.
    + unfold ctx_step in H. destruct (ctx s c); try discriminate; injection H as <-; simpl; eauto.
    + destruct (dp s); try discriminate. destruct (zero || irq s)%bool; [|discriminate]. injection H as <-. exists []. reflexivity.
    + destruct (dp s); try discriminate. destruct (negb zero && irq s)%bool; [|discriminate]. injection H as <-. exists []. reflexivity.
    + unfold disp_step in H. destruct (dp s) as [|ts|[|t ts]|t ts|t ts|t ts] eqn:D; simpl in E; try discriminate.
      * injection H as <-. simpl. eauto.
      * injection H as <-. simpl. eauto.
      * injection H as <-. simpl. destruct (running s t); simpl; [eauto|]. exists (pre ++ [t]). now rewrite <- app_assoc.
      * destruct (pending s t); [|injection H as <-; simpl; exists (pre ++ [t]); now rewrite <- app_assoc].
        destruct (slot s t); injection H as <-; simpl; [rewrite D; simpl; eauto| |rewrite D; simpl; eauto]. exists (pre ++ [t]). now rewrite <- app_assoc.
      * destruct r; [destruct (slot s t); try discriminate|]; injection H as <-; simpl; eauto.
      * destruct (slot s t); try discriminate. injection H as <-. simpl. eauto.
Qed.

Section Two.
Context (a b : nat).
(** How often [a] stands before the first [b]. *)
Fixpoint cnt (l : list nat) : nat := match l with [] => 0 | x :: l' => if x =? b then 0 else (if x =? a then 1 else 0) + cnt l' end.
Lemma cnt_app l l' : In b l -> cnt (l ++ l') = cnt l.
Proof. induction l as [|x l IH]; intros H; [destruct H|]. simpl. destruct (Nat.eqb_spec x b); [reflexivity|]. destruct H; [congruence|]. now rewrite IH. Qed.
Lemma cnt_none l : ~ In a l -> cnt l = 0.
Proof. induction l as [|x l IH]; intros H; [reflexivity|]. simpl. destruct (x =? b); [reflexivity|]. destruct (Nat.eqb_spec x a); [elim H; now left|]. apply IH. intros X. apply H. now right. Qed.
Lemma cnt_app_none l l' : ~ In b l -> cnt (l ++ l') = cnt l + cnt l'.
Proof. induction l as [|x l IH]; intros H; [reflexivity|]. simpl. destruct (Nat.eqb_spec x b); [elim H; now left|]. rewrite IH; [lia|]. intros X. apply H. now right. Qed.
Lemma cnt_nodup l : NoDup l -> cnt l <= 1.
Proof.
  induction l as [|x l IH]; intros H; simpl; [lia|]. inversion H as [|? ? N H']; subst. destruct (x =? b); [lia|]. destruct (Nat.eqb_spec x a).
  - subst. rewrite cnt_none by exact N. lia.
  - simpl. auto.
Qed.
Lemma cnt_round pre l : In b tasks -> tasks = pre ++ l -> cnt (l ++ tasks) <= 1.
Proof.
  intros Hb E. pose proof Hnd as N. rewrite E in N. apply NoDup_app_inv in N as (N1 & N2 & D). destruct (in_dec Nat.eq_dec b l) as [I|I].
  - rewrite cnt_app by exact I. now apply cnt_nodup.
  - rewrite cnt_app_none by exact I. assert (K : In b pre) by (rewrite E in Hb; apply in_app_iff in Hb; tauto).
    assert (C : cnt tasks = cnt pre) by (rewrite E; now apply cnt_app). rewrite C. destruct (in_dec Nat.eq_dec a l) as [J|J].
    + rewrite (@cnt_none pre) by (intros X; exact (D a X J)). pose proof (cnt_nodup N2). lia.
    + rewrite (@cnt_none l) by exact J. now apply cnt_nodup.
Qed.

(** While [b] is ready and not polled, each step uses up a poll of [a] in the rest of this pass and the next one up to [b]. *)
Lemma turn_step s l s' : In b tasks -> running s b = true -> pending s b = true -> step s l = Some s' ->
  exists es, elog s' = elog s ++ es /\
    ((exists id v, In (XPoll b id v) es) \/ (exists id, In (XEnd b id) es) \/ (ebug s' = true /\ polls a es <= cnt (ahead (dp s) ++ tasks)) \/
     (running s' b = true /\ pending s' b = true /\ polls a es + cnt (ahead (dp s') ++ tasks) <= cnt (ahead (dp s) ++ tasks))).
Proof.
  intros Hb Hr Hp H. unfold xstep in H. destruct (ebug s); [discriminate|]. destruct l as [c t v|c t|c| | |r].
  - destruct (ctx s c); try discriminate. destruct (in_dec Nat.eq_dec t tasks); [|discriminate]. injection H as <-. unfold do_spawn.
    destruct (running s t); (eexists; split; [reflexivity|]); right; right; right; simpl; (split; [unfold upd; destruct (b =? t); auto|]); split; auto.
  - destruct (ctx s c); try discriminate. destruct (in_dec Nat.eq_dec t tasks); [|discriminate]. injection H as <-. exists []. rewrite app_nil_r. split; [reflexivity|].
    right. right. right. simpl. split; [exact Hr|]. split; [|lia]. unfold upd. destruct (b =? t); auto.
  - unfold ctx_step in H. destruct (ctx s c) as [|t id v|t id v|t o]; try discriminate; injection H as <-.
    + exists []. rewrite app_nil_r. split; [reflexivity|]. right. right. right. simpl. auto.
    + exists []. rewrite app_nil_r. split; [reflexivity|]. right. right. right. simpl. split; [exact Hr|]. split; [|lia]. unfold upd. destruct (b =? t); auto.
    + eexists. split; [reflexivity|]. right. right. right. simpl. split; [exact Hr|]. split; [exact Hp|]. destruct o as [[id v]|]; simpl; lia.
  - destruct (dp s) eqn:D; try discriminate. destruct (zero || irq s)%bool; [|discriminate]. injection H as <-. exists []. rewrite app_nil_r. split; [reflexivity|].
    right. right. right. simpl. split; [exact Hr|]. split; [exact Hp|]. rewrite cnt_app by exact Hb. lia.
  - destruct (dp s) eqn:D; try discriminate. destruct (negb zero && irq s)%bool; [|discriminate]. injection H as <-. exists []. rewrite app_nil_r. split; [reflexivity|].
    right. right. right. simpl. split; [exact Hr|]. split; [exact Hp|]. rewrite cnt_app by exact Hb. lia.
  - unfold disp_step in H. destruct (dp s) as [|ts|[|t ts]|t ts|t ts|t ts] eqn:D; try discriminate.
    + injection H as <-. exists []. rewrite app_nil_r. split; [reflexivity|]. right. right. right. simpl. auto.
    + injection H as <-. exists []. rewrite app_nil_r. split; [reflexivity|]. right. right. right. simpl. auto.
    + injection H as <-. exists []. rewrite app_nil_r. split; [reflexivity|]. right. right. right. simpl. split; [exact Hr|]. split; [exact Hp|].
      destruct (running s t) eqn:R; simpl; [lia|]. destruct (Nat.eqb_spec t b) as [->|]; [congruence|]. lia.
    + destruct (pending s t) eqn:Pt.
      * destruct (slot s t) as [|id v|id] eqn:Sl; injection H as <-.
        -- exists []. rewrite app_nil_r. split; [reflexivity|]. right. right. left. split; [reflexivity|unfold polls; simpl; lia].
        -- eexists. split; [reflexivity|]. destruct (Nat.eqb_spec t b) as [->|N]; [left; exists id, v; now left|]. right. right. right. simpl.
           split; [exact Hr|]. split; [unfold upd; destruct (Nat.eqb_spec b t); congruence|]. destruct (Nat.eqb_spec t b); [congruence|]. unfold polls. simpl. destruct (t =? a); simpl; lia.
        -- exists []. rewrite app_nil_r. split; [reflexivity|]. right. right. left. split; [reflexivity|unfold polls; simpl; lia].
      * injection H as <-. exists []. rewrite app_nil_r. split; [reflexivity|]. right. right. right. simpl. split; [exact Hr|]. split; [exact Hp|].
        destruct (Nat.eqb_spec t b) as [->|]; [congruence|]. lia.
    + destruct r; [destruct (slot s t); try discriminate|]; injection H as <-; exists []; rewrite app_nil_r; (split; [reflexivity|]); right; right; right; simpl; auto.
    + destruct (slot s t); try discriminate. injection H as <-. eexists. split; [reflexivity|]. destruct (Nat.eqb_spec t b) as [->|N]; [right; left; eexists; now left|].
      right. right. right. simpl. split; [unfold upd; destruct (Nat.eqb_spec b t); congruence|]. auto.
Qed.
Lemma turn_run ls : In b tasks -> forall s s', running s b = true -> pending s b = true -> run step s ls = Some s' ->
  exists es, elog s' = elog s ++ es /\
    ((exists id v, In (XPoll b id v) es) \/ (exists id, In (XEnd b id) es) \/ (ebug s' = true /\ polls a es <= cnt (ahead (dp s) ++ tasks)) \/ (running s' b = true /\ pending s' b = true /\ polls a es + cnt (ahead (dp s') ++ tasks) <= cnt (ahead (dp s) ++ tasks))).
Proof.
  intros Hb. induction ls as [|l ls IH]; intros s s' Hr Hp H; simpl in H.
  - injection H as <-. exists []. rewrite app_nil_r. split; [reflexivity|]. right. right. right. simpl. auto.
  - destruct (step s l) as [s1|] eqn:E; [|discriminate]. destruct (@turn_step s l s1 Hb Hr Hp E) as (es & E1 & C).
    destruct C as [C|[C|[[C Cn]|(Hr1 & Hp1 & C)]]].
    + destruct (@elog_run V zero tasks _ _ _ H) as [es' E2]. exists (es ++ es'). rewrite app_assoc, <- E1. split; [exact E2|]. left. destruct C as (id & v & C). exists id, v. apply in_app_iff. now left.
    + destruct (@elog_run V zero tasks _ _ _ H) as [es' E2]. exists (es ++ es'). rewrite app_assoc, <- E1. split; [exact E2|]. right. left. destruct C as (id & C). exists id. apply in_app_iff. now left.
    + destruct ls as [|l' ls]; [|simpl in H; unfold xstep in H; rewrite C in H; discriminate]. simpl in H. injection H as <-. exists es. split; [exact E1|]. right. right. left. auto.
    + destruct (IH _ _ Hr1 Hp1 H) as (es' & E2 & D). exists (es ++ es'). rewrite app_assoc, <- E1. split; [exact E2|].
      destruct D as [(id & v & D)|[(id & D)|[[D Dn]|(D1 & D2 & D3)]]].
      * left. exists id, v. apply in_app_iff. now right.
      * right. left. exists id. apply in_app_iff. now right.
      * right. right. left. split; [exact D|]. rewrite polls_app. lia.
      * right. right. right. split; [exact D1|]. split; [exact D2|]. rewrite polls_app. lia.
Qed.
End Two.

(** From a moment [s] at which task [b] is alive and marked for polling (it was spawned or woken), until it is polled, every other task of its priority is polled at most once.
    (If [b] was woken while its last poll was about to return Ready, it ends instead.) *)
Theorem C73_others_polled_once s ls s' a b es : xreach zero tasks s -> running s b = true -> pending s b = true ->
  run step s ls = Some s' -> elog s' = elog s ++ es -> (forall id v, ~ In (XPoll b id v) es) -> (forall id, ~ In (XEnd b id) es) -> a <> b -> polls a es <= 1.
Proof.
  intros R Hr Hp H E N1 N2 Hab. assert (Hb : In b tasks) by exact (E_run (EInv_reach R) b Hr).
  destruct (@turn_run a b ls Hb s s' Hr Hp H) as (es' & E' & C). rewrite E in E'. apply app_inv_head in E'. subst es'.
  destruct (ahead_suffix R) as [pre Es]. pose proof (@cnt_round a b pre _ Hb Es) as M.
  destruct C as [(id & v & C)|[(id & C)|[[_ C]|(_ & _ & C)]]]; [elim (N1 id v C)|elim (N2 id C)|lia|lia].
Qed.

Lemma sum_polls (es : list (@xevent V)) l : NoDup l -> (forall t id v, In (XPoll t id v) es -> In t l) -> all_polls es = list_sum (map (fun t => polls t es) l).
Proof.
  intros N. induction es as [|e es IH]; intros H.
  - simpl. clear. induction l as [|x l IH]; simpl; auto.
  - assert (IH' := IH (fun t id v I => H t id v (or_intror I))). unfold all_polls, polls in *. destruct e as [t id v|c t id v|c t v|c t|t id v|t id]; simpl; auto. rewrite IH'.
    assert (I : In t l) by (apply (H t id v); now left). clear - I N. induction l as [|x l IH]; [destruct I|]. inversion N as [|? ? N1 N2]; subst. simpl. destruct (Nat.eqb_spec t x).
    + subst x. simpl. assert (X : map (fun t0 => length (if t =? t0 then XPoll t id v :: filter (fun e => match e with XPoll u _ _ => u =? t0 | _ => false end) es else filter (fun e => match e with XPoll u _ _ => u =? t0 | _ => false end) es)) l =
        map (fun t0 => length (filter (fun e => match e with XPoll u _ _ => u =? t0 | _ => false end) es)) l).
      { apply map_ext_in. intros y Iy. destruct (Nat.eqb_spec t y); [subst; contradiction|reflexivity]. }
      rewrite X. lia.
    + destruct I as [->|I]; [congruence|]. rewrite <- IH; auto. 
Qed.
Lemma polled_task s l s' t id v : xreach zero tasks s -> step s l = Some s' -> forall es, elog s' = elog s ++ es -> In (XPoll t id v) es -> In t tasks.
Proof.
  intros R H es E I. assert (X : In t (ahead (dp s))).
  { unfold xstep in H. destruct (ebug s); [discriminate|]. assert (N : elog s' = elog s -> False) by (intros Q; rewrite Q in E; rewrite <- app_nil_r in E at 1; apply app_inv_head in E; subst es; destruct I).
    assert (O : forall e, elog s' = elog s ++ [e] -> e = XPoll t id v) by (intros e Q; rewrite Q in E; apply app_inv_head in E; subst es; destruct I as [I|[]]; exact I).
    destruct l as [c u w|c u|c| | |r].
    - destruct (ctx s c); try discriminate. destruct (in_dec Nat.eq_dec u tasks); [|discriminate]. injection H as <-. unfold do_spawn in *. destruct (running s u); simpl in O; specialize (O _ eq_refl); discriminate.
    - destruct (ctx s c); try discriminate. destruct (in_dec Nat.eq_dec u tasks); [|discriminate]. injection H as <-. elim N. reflexivity.
    - unfold ctx_step in H. destruct (ctx s c) as [|u w1 w2|u w1 w2|u o]; try discriminate; injection H as <-; try (elim N; reflexivity). simpl in O. specialize (O _ eq_refl). destruct o as [[? ?]|]; discriminate.
    - destruct (dp s); try discriminate. destruct (zero || irq s)%bool; [|discriminate]. injection H as <-. elim N. reflexivity.
    - destruct (dp s); try discriminate. destruct (negb zero && irq s)%bool; [|discriminate]. injection H as <-. elim N. reflexivity.
    - unfold disp_step in H. destruct (dp s) as [|ts|[|u ts]|u ts|u ts|u ts] eqn:D; try discriminate; try (injection H as <-; elim N; reflexivity).
      + destruct (pending s u); [|injection H as <-; elim N; reflexivity]. destruct (slot s u); injection H as <-; try (elim N; reflexivity). specialize (O _ eq_refl). injection O as -> _ _. now left.
      + destruct r; [destruct (slot s u); try discriminate|]; injection H as <-; elim N; reflexivity.
      + destruct (slot s u); try discriminate. injection H as <-. specialize (O _ eq_refl). discriminate. }
  destruct (ahead_suffix R) as [pre ->]. apply in_app_iff. now right.
Qed.
Lemma polled_tasks ls : forall s s' es, xreach zero tasks s -> run step s ls = Some s' -> elog s' = elog s ++ es -> forall t id v, In (XPoll t id v) es -> In t tasks.
Proof.
  induction ls as [|l ls IH]; intros s s' es R H E t id v I; simpl in H.
  - injection H as <-. rewrite <- app_nil_r in E at 1. apply app_inv_head in E. subst es. destruct I.
  - destruct (step s l) as [s1|] eqn:E1; [|discriminate]. destruct (elog_step _ _ _ _ E1) as [e1 L1]. destruct (@elog_run V zero tasks _ _ _ H) as [e2 L2].
    rewrite L2, L1, <- app_assoc in E. apply app_inv_head in E. subst es. apply in_app_iff in I as [I|I].
    + exact (@polled_task s l s1 t id v R E1 e1 L1 I).
    + exact (IH s1 s' e2 (reach_step _ R E1) H L2 t id v I).
Qed.
(** So at most [length tasks - 1] polls are made in between. *)
Theorem C73_bounded_wait s ls s' b es : xreach zero tasks s -> running s b = true -> pending s b = true ->
  run step s ls = Some s' -> elog s' = elog s ++ es -> (forall id v, ~ In (XPoll b id v) es) -> (forall id, ~ In (XEnd b id) es) -> S (all_polls es) <= length tasks.
Proof.
  intros R Hr Hp H E N1 N2. assert (Hb : In b tasks) by exact (E_run (EInv_reach R) b Hr).
  rewrite (@sum_polls es tasks Hnd (@polled_tasks ls s s' es R H E)).
  assert (P : forall a, a <> b -> polls a es <= 1) by (intros a; exact (@C73_others_polled_once s ls s' a b es R Hr Hp H E N1 N2)).
  assert (Z : polls b es = 0).
  { unfold polls. clear - N1. induction es as [|e es IH]; [reflexivity|]. assert (IH' : length (filter (fun e => match e with XPoll u _ _ => u =? b | _ => false end) es) = 0) by (apply IH; intros id v I; apply (N1 id v); now right).
    simpl. destruct e as [t id v|c t id v|c t v|c t|t id v|t id]; auto. destruct (Nat.eqb_spec t b) as [->|]; [elim (N1 id v); now left|exact IH']. }
  apply in_split in Hb as (l1 & l2 & Q). rewrite Q in *. rewrite map_app, list_sum_app, app_length. simpl. rewrite Z.
  assert (B : forall l, ~ In b l -> list_sum (map (fun t => polls t es) l) <= length l).
  { clear - P. induction l as [|x l IH]; intros N; simpl; [lia|]. assert (polls x es <= 1) by (apply P; intros ->; apply N; now left). assert (list_sum (map (fun t => polls t es) l) <= length l) by (apply IH; intros I; apply N; now right). lia. }
  apply NoDup_remove in Hnd as [_ D]. assert (~ In b l1 /\ ~ In b l2) as [D1 D2] by (rewrite in_app_iff in D; tauto). pose proof (B l1 D1). pose proof (B l2 D2). lia.
Qed.

(** What a task's poll in progress has logged; and polls start with the event. *)
Lemma inside_step s l s' b es : step s l = Some s' -> elog s' = elog s ++ es -> (forall id v, ~ In (XPoll b id v) es) -> inside (dp s) <> Some b ->
  inside (dp s') <> Some b /\ forall id, ~ In (XEnd b id) es.
Proof.
  intros H E N D. unfold xstep in H. destruct (ebug s); [discriminate|].
  assert (Z : elog s' = elog s -> forall id, ~ In (XEnd b id) es) by (intros Q id I; rewrite Q in E; rewrite <- app_nil_r in E at 1; apply app_inv_head in E; subst es; destruct I).
  assert (O : forall e, elog s' = elog s ++ [e] -> es = [e]) by (intros e Q; rewrite Q in E; now apply app_inv_head in E).
  destruct l as [c u w|c u|c| | |r].
  - destruct (ctx s c); try discriminate. destruct (in_dec Nat.eq_dec u tasks); [|discriminate]. injection H as <-. unfold do_spawn in *.
    destruct (running s u); simpl in *; specialize (O _ eq_refl); subst es; (split; [exact D|]); intros id [I|[]]; discriminate.
  - destruct (ctx s c); try discriminate. destruct (in_dec Nat.eq_dec u tasks); [|discriminate]. injection H as <-. split; [exact D|]. now apply Z.
  - unfold ctx_step in H. destruct (ctx s c) as [|u w1 w2|u w1 w2|u o]; try discriminate; injection H as <-; (split; [exact D|]); try (now apply Z). simpl in O. specialize (O _ eq_refl). subst es. intros id [I|[]]. destruct o as [[? ?]|]; discriminate.
  - destruct (dp s); try discriminate. destruct (zero || irq s)%bool; [|discriminate]. injection H as <-. split; [discriminate|]. now apply Z.
  - destruct (dp s); try discriminate. destruct (negb zero && irq s)%bool; [|discriminate]. injection H as <-. split; [discriminate|]. now apply Z.
  - unfold disp_step in H. destruct (dp s) as [|ts|[|u ts]|u ts|u ts|u ts] eqn:Ed; try discriminate.
    + injection H as <-. split; [discriminate|]. now apply Z.
    + injection H as <-. split; [discriminate|]. now apply Z.
    + injection H as <-. split; [simpl; destruct (running s u); discriminate|]. now apply Z.
    + destruct (pending s u); [|injection H as <-; split; [discriminate|now apply Z]].
      destruct (slot s u); injection H as <-; [split; [simpl; rewrite Ed; discriminate|now apply Z]| |split; [simpl; rewrite Ed; discriminate|now apply Z]].
      specialize (O _ eq_refl). subst es. split; [simpl; intros X; injection X as <-; eapply N; left; reflexivity|intros id' [I|[]]; discriminate].
    + simpl in D. destruct r; [destruct (slot s u); try discriminate|]; injection H as <-; (split; [|now apply Z]); simpl; [exact D|discriminate].
    + simpl in D. destruct (slot s u); try discriminate. injection H as <-. split; [discriminate|]. specialize (O _ eq_refl). subst es. intros id' [I|[]]. injection I as <- _. now apply D.
Qed.
Lemma inside_run b ls : forall s s' es, run step s ls = Some s' -> elog s' = elog s ++ es -> (forall id v, ~ In (XPoll b id v) es) -> inside (dp s) <> Some b -> forall id, ~ In (XEnd b id) es.
Proof.
  induction ls as [|l ls IH]; intros s s' es H E N D id I; simpl in H.
  - injection H as <-. rewrite <- app_nil_r in E at 1. apply app_inv_head in E. subst es. destruct I.
  - destruct (step s l) as [s1|] eqn:E1; [|discriminate]. destruct (elog_step _ _ _ _ E1) as [e1 L1]. destruct (@elog_run V zero tasks _ _ _ H) as [e2 L2].
    rewrite L2, L1, <- app_assoc in E. apply app_inv_head in E. subst es.
    destruct (@inside_step s l s1 b e1 E1 L1) as [D1 N1]; [intros i v J; apply (N i v), in_app_iff; now left|exact D|].
    apply in_app_iff in I as [I|I]; [exact (N1 id I)|]. refine (IH s1 s' e2 H L2 _ D1 id I). intros i v J. apply (N i v), in_app_iff. now right.
Qed.
Lemma in_poll_logged s : xreach zero tasks s -> forall t ts id v, dp s = DIn t ts -> slot s t = FLive id v -> In (XPoll t id v) (elog s).
Proof.
  intros R. enough (H : xreach zero tasks s /\ forall t ts id v, dp s = DIn t ts -> slot s t = FLive id v -> In (XPoll t id v) (elog s)) by apply H.
  refine (@reach_inv _ _ step (fun s => xreach zero tasks s /\ forall t ts id v, dp s = DIn t ts -> slot s t = FLive id v -> In (XPoll t id v) (elog s)) _ _ _ s R).
  - split; [exists []; reflexivity|discriminate].
  - clear s R. intros s l s' [R J] H. split; [exact (reach_step _ R H)|]. intros t ts id v. destruct (elog_step _ _ _ _ H) as [e1 L1].
    assert (Ke : forall x, In x (elog s) -> In x (elog s')) by (intros x X; rewrite L1; apply in_app_iff; now left).
    pose proof (EInv_reach R) as I. unfold xstep in H. destruct (ebug s); [discriminate|]. destruct l as [c u w|c u|c| | |r].
    + destruct (ctx s c); try discriminate. destruct (in_dec Nat.eq_dec u tasks); [|discriminate]. injection H as <-. unfold do_spawn in *. destruct (running s u); simpl in *; intros D S; eapply Ke, J; eauto.
    + destruct (ctx s c); try discriminate. destruct (in_dec Nat.eq_dec u tasks); [|discriminate]. injection H as <-. simpl in *. eauto.
    + unfold ctx_step in H. destruct (ctx s c) as [|u w1 w2|u w1 w2|u o] eqn:Ec; try discriminate; injection H as <-; simpl in *; eauto. intros D S. unfold upd in S. destruct (Nat.eqb_spec t u) as [->|]; [|eauto].
      assert (X : in_window s c u) by (exists w1, w2; exact Ec). apply (E_win I) in X as (_ & X & _). elim X. now rewrite D.
    + destruct (dp s); try discriminate. destruct (zero || irq s)%bool; [|discriminate]. injection H as <-. discriminate.
    + destruct (dp s); try discriminate. destruct (negb zero && irq s)%bool; [|discriminate]. injection H as <-. discriminate.
    + unfold disp_step in H. destruct (dp s) as [|ts'|[|u ts']|u ts'|u ts'|u ts'] eqn:Ed; try discriminate.
      * injection H as <-. discriminate.
      * injection H as <-. discriminate.
      * injection H as <-. simpl. destruct (running s u); discriminate.
      * destruct (pending s u); [|injection H as <-; discriminate]. destruct (slot s u) as [|i w|i] eqn:Sl; injection H as <-; simpl; try (rewrite Ed; discriminate).
        intros X S. injection X as -> ->. rewrite Sl in S. injection S as -> ->. apply in_app_iff. right. now left.
      * destruct r; [destruct (slot s u); try discriminate|]; injection H as <-; discriminate.
      * destruct (slot s u); try discriminate. injection H as <-. discriminate.
Qed.

(** In terms of the API: after a spawn has returned Ok and until its instance is polled, *)
Theorem C73_after_spawn s ls s' a b c id v es : xreach zero tasks s -> In (XOk c b id v) (elog s) -> ~ In (XPoll b id v) (elog s) -> ebug s = false ->
  run step s ls = Some s' -> elog s' = elog s ++ es -> (forall id v, ~ In (XPoll b id v) es) -> a <> b -> polls a es <= 1 /\ S (all_polls es) <= length tasks.
Proof.
  intros R I N B H E N1 Hab. destruct (C15_spawn_is_polled_or_due _ _ _ _ R B I) as [X|(Hr & Hs & Hp & _)]; [contradiction|].
  assert (D : inside (dp s) <> Some b).
  { destruct (dp s) as [|ts|ts|u ts|u ts|u ts] eqn:Ed; try discriminate; simpl; intros [= ->].
    - exact (N (in_poll_logged R Ed Hs)).
    - destruct (E_fin (EInv_reach R) Ed) as [i F]. congruence. }
  pose proof (@inside_run b ls s s' es H E N1 D) as N2. split; [exact (@C73_others_polled_once s ls s' a b es R Hr Hp H E N1 N2 Hab)|exact (@C73_bounded_wait s ls s' b es R Hr Hp H E N1 N2)].
Qed.
(** and after a wake of a live task, until it is polled or (the wake came during its last poll) ends. *)
Theorem C73_after_wake s c b s1 ls s' a id v es : xreach zero tasks s -> lives b (elog s) (Some (id, v)) -> step s (LWake c b) = Some s1 ->
  run step s1 ls = Some s' -> elog s' = elog s1 ++ es -> (forall id v, ~ In (XPoll b id v) es) -> (forall id, ~ In (XEnd b id) es) -> a <> b -> polls a es <= 1 /\ S (all_polls es) <= length tasks.
Proof.
  intros R L Hw H E N1 N2 Hab. assert (R1 : xreach zero tasks s1) by exact (reach_step _ R Hw).
  assert (Hr : running s b = true) by (apply (@C14_running_is_live V zero tasks s b R); eauto).
  assert (Hr1 : running s1 b = true /\ pending s1 b = true).
  { unfold xstep in Hw. destruct (ebug s); [discriminate|]. destruct (ctx s c); try discriminate. destruct (in_dec Nat.eq_dec b tasks); [|discriminate]. injection Hw as <-. simpl. rewrite upd_same. auto. }
  destruct Hr1 as [Hr1 Hp1]. split; [exact (@C73_others_polled_once s1 ls s' a b es R1 Hr1 Hp1 H E N1 N2 Hab)|exact (@C73_bounded_wait s1 ls s' b es R1 Hr1 Hp1 H E N1 N2)].
Qed.
End Turns.
Print Assumptions C73_others_polled_once.
Print Assumptions C73_bounded_wait.
Print Assumptions C73_after_spawn.
Print Assumptions C73_after_wake.

(** Three tasks.  Task 1 is woken just after it was polled; then task 2 is polled, and task 0 once more, before the dispatcher comes to task 1: the bounds
    are reached. *)
Definition turn_spawn (t v : nat) : list (@xlabel nat) := [LSpawn 7 t v; LCtx 7; LCtx 7; LCtx 7].
Definition turn_poll : list (@xlabel nat) := [LDisp false; LDisp false; LDisp false].
Definition turn_pre := turn_spawn 0 4 ++ turn_spawn 1 5 ++ turn_spawn 2 6 ++ [LDispatch] ++ turn_poll ++ turn_poll.
Definition turn_mid : list (@xlabel nat) := turn_poll ++ [LDisp false; LCtx 9; LWake 8 0; LCtx 8; LDispatch] ++ turn_poll.
Example C73_case : exists s s1 s' es, xreach false [0; 1; 2] s /\ lives 1 (elog s) (Some (1, 5)) /\ xstep false [0; 1; 2] s (LWake 9 1) = Some s1 /\
  run (xstep false [0; 1; 2]) s1 turn_mid = Some s' /\ elog s' = elog s1 ++ es /\ polls 0 es = 1 /\ polls 2 es = 1 /\ polls 1 es = 0 /\
  (forall id, ~ In (XEnd 1 id) es) /\ S (all_polls es) = length [0; 1; 2].
Proof.
  destruct (run (xstep false [0; 1; 2]) (@ex_new nat) turn_pre) as [s|] eqn:E; [|vm_compute in E; discriminate].
  destruct (xstep false [0; 1; 2] s (LWake 9 1)) as [s1|] eqn:E1; [|vm_compute in E; injection E as <-; vm_compute in E1; discriminate].
  destruct (run (xstep false [0; 1; 2]) s1 turn_mid) as [s'|] eqn:E2; [|vm_compute in E; injection E as <-; vm_compute in E1; injection E1 as <-; vm_compute in E2; discriminate].
  exists s, s1, s'. exists [XPoll 2 2 6; XWoke 9 1; XWoke 8 0; XPoll 0 0 4]. split; [exists turn_pre; exact E|]. vm_compute in E. injection E as <-. vm_compute in E1. injection E1 as <-. vm_compute in E2. injection E2 as <-.
  split; [|split; [reflexivity|]; split; [vm_compute; reflexivity|]; split; [reflexivity|]; split; [reflexivity|]; split; [reflexivity|]; split; [reflexivity|]; split; [|reflexivity]].
  - cbn [elog].
    change (lives 1 ((((((((([] ++ [XAlloc 0 0 4]) ++ [XOk 7 0 0 4]) ++ [XAlloc 1 1 5]) ++ [XOk 7 1 1 5]) ++ [XAlloc 2 2 6]) ++ [XOk 7 2 2 6]) ++ [XPoll 0 0 4]) ++ [XPoll 1 1 5])) (Some (1, 5))).
    apply lv_poll. repeat (apply lv_other; [simpl; auto; discriminate|]). apply lv_alloc. repeat (apply lv_other; [simpl; auto; discriminate|]). apply lv_nil.
  - intros id [I|[I|[I|[I|[]]]]]; discriminate.
Qed.
