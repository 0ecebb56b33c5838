(** C85: The executor works only for cause.  Vocabulary: ExecSpec.v; the model is that of C14-C17 and C73. *)
From Verif Require Import Base LTS ExecModel ExecSpec ExecProofs ExecProgress.
Set Implicit Arguments.

Section Cause.
Context {V : Type} (zero : bool) (tasks : list nat).
Implicit Types (s : @ex V) (t c id : nat) (v : V).
Notation step := (@xstep V zero tasks).

(** How often, in a history: task [t] was polled; a spawn of [t] was accepted; a spawn or a wake (of any task) was completed. *)
Definition is_poll t (e : @xevent V) : bool := match e with XPoll u _ _ => u =? t | _ => false end.
Definition is_alloc t (e : @xevent V) : bool := match e with XAlloc u _ _ => u =? t | _ => false end.
Definition is_done (e : @xevent V) : bool := match e with XOk _ _ _ _ | XWoke _ _ => true | _ => false end.
Definition times (f : @xevent V -> bool) (l : list (@xevent V)) : nat := length (filter f l).
(** How often, in a schedule: a waker of [t] was called; the dispatcher started a pass. *)
Definition is_wake t (l : @xlabel V) : bool := match l with LWake _ u => u =? t | _ => false end.
Definition is_pass (l : @xlabel V) : bool := match l with LDispatch | LAccept => true | _ => false end.
Definition ltimes (f : @xlabel V -> bool) (l : list (@xlabel V)) : nat := length (filter f l).
(** Context [c] is in the middle of a spawn of [t] and has not marked [t] yet. *)
Definition spawning s c t : Prop := exists id v, ctx s c = CWrite t id v \/ ctx s c = CSet t id v.

Definition b2n (b : bool) : nat := if b then 1 else 0.
Lemma times_app f l l' : times f (l ++ l') = times f l + times f l'.
Proof. unfold times. now rewrite filter_app, app_length. Qed.

(** What may still lead to a poll of [t]: its mark, and the spawns under way. *)
Definition due s t n : Prop := exists W, NoDup W /\ (forall c, In c W <-> spawning s c t) /\ n = b2n (pending s t) + length W.

Lemma due_same s s' t n : due s t n -> pending s' t = pending s t -> ctx s' = ctx s -> due s' t n.
Proof. intros (W & N & H & ->) E1 E2. exists W. split; [exact N|]. split; [|now rewrite E1]. intros c. rewrite H. unfold spawning. now rewrite E2. Qed.
Lemma due_ctx s t n c0 p : due s t n -> ~ spawning s c0 t -> (forall id v, p <> CWrite t id v /\ p <> CSet t id v) -> due (set_ctx s c0 p) t n.
Proof.
  intros (W & N & H & ->) N0 P. exists W. split; [exact N|]. split; [|reflexivity]. intros c. rewrite H. unfold spawning. simpl. unfold upd. destruct (Nat.eqb_spec c c0) as [->|]; [|tauto].
  split; [intros X; now elim N0|]. intros (id & v & [X|X]); destruct (P id v); contradiction.
Qed.
Lemma not_spawning s c t : (forall id v, ctx s c <> CWrite t id v /\ ctx s c <> CSet t id v) -> ~ spawning s c t.
Proof. intros H (id & v & [X|X]); destruct (H id v); contradiction. Qed.

Lemma cause_step s l s' t n : step s l = Some s' -> due s t n ->
  exists es m, elog s' = elog s ++ es /\ due s' t m /\ times (is_poll t) es + m <= n + b2n (is_wake t l) + times (is_alloc t) es.
Proof.
  intros H D. unfold xstep in H. destruct (ebug s); [discriminate|].
  assert (K : forall s1, ctx s1 = ctx s -> pending s1 t = pending s t -> forall es, elog s1 = elog s ++ es -> times (is_poll t) es = 0 ->
     exists es m, elog s1 = elog s ++ es /\ due s1 t m /\ times (is_poll t) es + m <= n + b2n (is_wake t l) + times (is_alloc t) es).
  { intros s1 E1 E2 es E3 E4. exists es, n. split; [exact E3|]. split; [now apply (@due_same s)|]. lia. }
  assert (K0 : forall s1, ctx s1 = ctx s -> pending s1 t = pending s t -> elog s1 = elog s ->
     exists es m, elog s1 = elog s ++ es /\ due s1 t m /\ times (is_poll t) es + m <= n + b2n (is_wake t l) + times (is_alloc t) es).
  { intros s1 E1 E2 E3. apply (@K s1 E1 E2 []); [now rewrite app_nil_r|reflexivity]. }
  destruct l as [c u w|c u|c| | |r].
  - destruct (ctx s c) eqn:C; try discriminate. destruct (in_dec Nat.eq_dec u tasks); [|discriminate]. injection H as <-. unfold do_spawn. destruct (running s u).
    + now apply (@K (xemit s (XErr c u w)) eq_refl eq_refl [XErr c u w]).
    + destruct D as (W & N & Hw & ->). assert (Nc : ~ spawning s c t) by (apply not_spawning; intros; rewrite C; split; discriminate).
      destruct (Nat.eqb_spec u t) as [->|Ne].
      * exists [XAlloc t (nid s) w], (b2n (pending s t) + length (c :: W)). split; [reflexivity|]. split.
        -- exists (c :: W). split; [constructor; [now rewrite Hw|exact N]|]. split; [|reflexivity]. intros c'. simpl. rewrite Hw. unfold spawning. simpl. unfold upd. destruct (Nat.eqb_spec c' c) as [->|]; [|intuition congruence].
           split; [intros _; do 2 eexists; left; reflexivity|auto].
        -- unfold times. simpl. rewrite Nat.eqb_refl. simpl. lia.
      * exists [XAlloc u (nid s) w], (b2n (pending s t) + length W). split; [reflexivity|]. split.
        -- refine (@due_ctx _ t _ c (CWrite u (nid s) w) _ _ _); [exists W; auto|exact Nc|]. intros; split; congruence.
        -- unfold times. simpl. destruct (Nat.eqb_spec u t); [congruence|]. simpl. lia.
  - destruct (ctx s c) eqn:C; try discriminate. destruct (in_dec Nat.eq_dec u tasks); [|discriminate]. injection H as <-.
    assert (Nc : ~ spawning s c t) by (apply not_spawning; intros; rewrite C; split; discriminate). destruct D as (W & N & Hw & ->).
    exists [], (b2n (if u =? t then true else pending s t) + length W). split; [simpl; now rewrite app_nil_r|]. split.
    + exists W. split; [exact N|]. split.
      * intros c'. rewrite Hw. unfold spawning. simpl. unfold upd. destruct (Nat.eqb_spec c' c) as [->|]; [|tauto]. rewrite C. split; intros (? & ? & [?|?]); discriminate.
      * simpl. unfold upd. rewrite (Nat.eqb_sym t u). reflexivity.
    + simpl. destruct (Nat.eqb_spec u t); unfold times; simpl; destruct (pending s t); simpl; lia.
  - unfold ctx_step in H. destruct (ctx s c) as [|u id v|u id v|u o] eqn:C; try discriminate; injection H as <-.
    + exists [], n. split; [simpl; now rewrite app_nil_r|]. split; [|unfold times; simpl; lia]. destruct D as (W & N & Hw & ->). exists W. split; [exact N|]. split; [|reflexivity].
      intros c'. rewrite Hw. unfold spawning. simpl. unfold upd. destruct (Nat.eqb_spec c' c) as [->|]; [|tauto]. rewrite C. split; intros (i & x & [X|X]); try discriminate; injection X as -> -> ->; eauto.
    + destruct D as (W & N & Hw & ->). destruct (Nat.eqb_spec u t) as [->|Ne].
      * assert (Ic : In c W) by (apply Hw; exists id, v; auto). apply in_split in Ic as (W1 & W2 & ->). exists [], (1 + length (W1 ++ W2)). split; [simpl; now rewrite app_nil_r|]. split.
        -- exists (W1 ++ W2). split; [exact (NoDup_remove_1 _ _ _ N)|]. pose proof (NoDup_remove_2 _ _ _ N) as N2. split; [|simpl; now rewrite upd_same].
           intros c'. specialize (Hw c'). unfold spawning in *. simpl. unfold upd. destruct (Nat.eqb_spec c' c) as [->|Nc].
           ++ split; [intros; contradiction|]. intros (? & ? & [X|X]); discriminate.
           ++ rewrite <- Hw. rewrite !in_app_iff. simpl. intuition congruence.
        -- unfold times. simpl. rewrite !app_length. simpl. destruct (pending s t); simpl; lia.
      * exists [], (b2n (pending s t) + length W). split; [simpl; now rewrite app_nil_r|]. split; [|unfold times; simpl; lia].
        exists W. split; [exact N|]. split; [|simpl; now rewrite upd_other by congruence]. intros c'. rewrite Hw. unfold spawning. simpl. unfold upd. destruct (Nat.eqb_spec c' c) as [->|]; [|tauto]. rewrite C. split; intros (i & x & [X|X]); try discriminate; congruence.
    + eexists [_], n. split; [reflexivity|]. split; [|destruct o as [[? ?]|]; unfold times; simpl; lia].
      refine (@due_ctx (set_irq s (if zero then irq s else true)) t n c CIdle _ _ _); [now apply (@due_same s)| |intros; split; discriminate]. apply not_spawning. intros. simpl. rewrite C. split; discriminate.
  - destruct (dp s); try discriminate. destruct (zero || irq s)%bool; [|discriminate]. injection H as <-. now apply K0.
  - destruct (dp s); try discriminate. destruct (negb zero && irq s)%bool; [|discriminate]. injection H as <-. now apply K0.
  - unfold disp_step in H. destruct (dp s) as [|ts|[|u ts]|u ts|u ts|u ts] eqn:Dp; try discriminate; try (injection H as <-; now apply K0).
    + destruct (pending s u) eqn:P; [|injection H as <-; now apply K0]. destruct D as (W & N & Hw & ->). destruct (slot s u) as [|id v|id] eqn:S; injection H as <-.
      1,3: exists [], (b2n (upd (pending s) u false t) + length W); (split; [simpl; now rewrite app_nil_r|]); (split; [exists W; auto|]); unfold times, upd; simpl; destruct (Nat.eqb_spec t u); destruct (pending s t); simpl; lia.
      exists [XPoll u id v], (b2n (upd (pending s) u false t) + length W). split; [reflexivity|]. split; [exists W; auto|]. unfold times, upd. simpl. rewrite (Nat.eqb_sym t u). destruct (Nat.eqb_spec u t) as [->|]; simpl; [rewrite P; simpl; lia|lia].
    + destruct r; [destruct (slot s u); try discriminate|]; injection H as <-; now apply K0.
    + destruct (slot s u) as [| |id]; try discriminate. injection H as <-. now apply (@K (xemit (set_dp (set_running s u false) (DAt ts)) (XEnd u id)) eq_refl eq_refl [XEnd u id]).
Qed.
Lemma cause_run ls : forall s s' t n, run step s ls = Some s' -> due s t n ->
  exists es m, elog s' = elog s ++ es /\ due s' t m /\ times (is_poll t) es + m <= n + ltimes (is_wake t) ls + times (is_alloc t) es.
Proof.
  induction ls as [|l ls IH]; intros s s' t n H D; simpl in H.
  - injection H as <-. exists [], n. split; [now rewrite app_nil_r|]. split; [exact D|]. unfold times, ltimes. simpl. lia.
  - destruct (step s l) as [s1|] eqn:E; [|discriminate]. destruct (@cause_step _ _ _ _ _ E D) as (e1 & m1 & L1 & D1 & C1). destruct (IH _ _ _ _ H D1) as (e2 & m2 & L2 & D2 & C2).
    exists (e1 ++ e2), m2. split; [now rewrite L2, L1, app_assoc|]. split; [exact D2|]. rewrite !times_app. unfold ltimes in *. simpl. destruct (is_wake t l); simpl in *; lia.
Qed.

(** In every history a task is polled at most once for each spawn of it and each call of its waker; spawns and wakes of other tasks
    never get it polled. *)
Theorem C85_polls_for_cause ls s t : run step ex_new ls = Some s -> times (is_poll t) (elog s) <= times (is_alloc t) (elog s) + ltimes (is_wake t) ls.
Proof.
  intros H. destruct (@cause_run ls ex_new s t 0 H) as (es & m & E & _ & C).
  - exists []. split; [constructor|]. split; [|reflexivity]. intros c. split; [intros []|]. intros (? & ? & [X|X]); discriminate.
  - simpl in E. subst es. lia.
Qed.
(** The same from any moment at which the task is not marked and not being spawned: without a spawn or a wake it is not polled again. *)
Theorem C85_no_poll_without_cause ls s s' t es : pending s t = false -> (forall c, ~ spawning s c t) -> run step s ls = Some s' -> elog s' = elog s ++ es ->
  times (is_poll t) es <= times (is_alloc t) es + ltimes (is_wake t) ls.
Proof.
  intros P N H E. destruct (@cause_run ls s s' t 0 H) as (es' & m & E' & _ & C).
  - exists []. split; [constructor|]. split; [|now rewrite P]. intros c. split; [intros []|]. intros X. now elim (N c).
  - rewrite E in E'. apply app_inv_head in E'. subst es'. lia.
Qed.

(** The dispatcher's handler is entered at most once for each completed spawn or wake. *)
Definition entering (d : @dpc) : bool := match d with DEnter _ => true | _ => false end.
Definition armed s : nat := b2n (irq s && negb (entering (dp s))).
Lemma pass_step s l s' : zero = false -> step s l = Some s' ->
  exists es, elog s' = elog s ++ es /\ b2n (is_pass l) + armed s' <= armed s + times is_done es.
Proof.
  intros Hz H. unfold xstep in H. destruct (ebug s); [discriminate|]. unfold armed.
  destruct l as [c u w|c u|c| | |r].
  - destruct (ctx s c); try discriminate. destruct (in_dec Nat.eq_dec u tasks); [|discriminate]. injection H as <-. unfold do_spawn. destruct (running s u); (eexists [_]; split; [reflexivity|]; unfold times; simpl; lia).
  - destruct (ctx s c); try discriminate. destruct (in_dec Nat.eq_dec u tasks); [|discriminate]. injection H as <-. exists []. split; [simpl; now rewrite app_nil_r|]. unfold times; simpl; lia.
  - unfold ctx_step in H. destruct (ctx s c) as [|u id v|u id v|u o]; try discriminate; injection H as <-; [exists []..|]; try (split; [simpl; now rewrite app_nil_r|]; unfold times; simpl; lia).
    eexists [_]. split; [reflexivity|]. rewrite Hz. simpl. destruct (entering (dp s)), o as [[? ?]|]; unfold times; simpl; destruct (irq s); simpl; lia.
  - destruct (dp s); try discriminate. rewrite Hz in H. simpl in H. destruct (irq s); [|discriminate]. injection H as <-. exists []. split; [simpl; now rewrite app_nil_r|]. unfold times; simpl; lia.
  - destruct (dp s); try discriminate. rewrite Hz in H. simpl in H. destruct (irq s) eqn:I; [|discriminate]. injection H as <-. exists []. split; [simpl; now rewrite app_nil_r|]. unfold times; simpl. rewrite I. simpl. lia.
  - unfold disp_step in H. destruct (dp s) as [|ts|[|u ts]|u ts|u ts|u ts] eqn:Dp; try discriminate.
    + injection H as <-. exists []. split; [simpl; now rewrite app_nil_r|]. unfold times; simpl; lia.
    + injection H as <-. exists []. split; [simpl; now rewrite app_nil_r|]. unfold times; simpl; lia.
    + injection H as <-. exists []. split; [simpl; now rewrite app_nil_r|]. unfold times; simpl; destruct (running s u); simpl; lia.
    + destruct (pending s u); [|injection H as <-; exists []; (split; [simpl; now rewrite app_nil_r|]); unfold times; simpl; lia].
      destruct (slot s u) as [|id v|id]; injection H as <-; [exists []|exists [XPoll u id v]|exists []]; (split; [simpl; now rewrite ?app_nil_r|]); unfold times; simpl; rewrite ?Dp; simpl; lia.
    + destruct r; [destruct (slot s u); try discriminate|]; injection H as <-; exists []; (split; [simpl; now rewrite app_nil_r|]); unfold times; simpl; lia.
    + destruct (slot s u) as [| |id]; try discriminate. injection H as <-. exists [XEnd u id]. split; [reflexivity|]. unfold times; simpl; lia.
Qed.
Lemma pass_run ls : zero = false -> forall s s', run step s ls = Some s' -> exists es, elog s' = elog s ++ es /\ ltimes is_pass ls + armed s' <= armed s + times is_done es.
Proof.
  intros Hz. induction ls as [|l ls IH]; intros s s' H; simpl in H.
  - injection H as <-. exists []. split; [now rewrite app_nil_r|]. unfold times, ltimes. simpl. lia.
  - destruct (step s l) as [s1|] eqn:E; [|discriminate]. destruct (@pass_step _ _ _ Hz E) as (e1 & L1 & C1). destruct (IH _ _ H) as (e2 & L2 & C2).
    exists (e1 ++ e2). split; [now rewrite L2, L1, app_assoc|]. rewrite times_app. unfold ltimes in *. simpl. destruct (is_pass l); simpl in *; lia.
Qed.
Theorem C85_passes_for_cause ls s : zero = false -> run step ex_new ls = Some s -> ltimes is_pass ls <= times is_done (elog s).
Proof. intros Hz H. destruct (@pass_run ls Hz _ _ H) as (es & E & C). simpl in E. subst es. unfold armed in C. simpl in C. lia. Qed.

(** At rest (dispatcher not pended and idle, nobody spawning or waking) the only thing that can happen is that somebody spawns or wakes. *)
Theorem C85_rest_is_quiet s l s' : zero = false -> irq s = false -> dp s = DIdle -> (forall c, ctx s c = CIdle) -> step s l = Some s' ->
  (exists c t v, l = LSpawn c t v) \/ (exists c t, l = LWake c t).
Proof.
  intros Hz I D C H. unfold xstep in H. destruct (ebug s); [discriminate|]. destruct l as [c u w|c u|c| | |r]; eauto; exfalso.
  - unfold ctx_step in H. now rewrite C in H.
  - rewrite D, Hz, I in H. discriminate.
  - rewrite D, Hz, I in H. discriminate.
  - unfold disp_step in H. now rewrite D in H.
Qed.
End Cause.

(** Two tasks: 0 is spawned and woken once (after its first poll), polled twice; 1 is neither and is not polled; then all is at rest. *)
Definition cause_ls : list (@xlabel nat) :=
  [LSpawn 7 0 42; LCtx 7; LCtx 7; LCtx 7; LDispatch; LDisp false; LDisp false; LDisp false; LDisp false; LDisp false;
   LWake 7 0; LCtx 7; LAccept; LDisp false; LDisp false; LDisp false; LDisp false; LDisp false; LDisp false].
Example C85_case : exists s, run (@xstep nat false [0; 1]) ex_new cause_ls = Some s /\ times (is_poll 0) (elog s) = 2 /\ times (is_alloc 0) (elog s) = 1 /\ ltimes (is_wake 0) cause_ls = 1 /\
  times (is_poll 1) (elog s) = 0 /\ ltimes is_pass cause_ls = 2 /\ times is_done (elog s) = 2 /\ irq s = false /\ dp s = DIdle /\ ctx s 7 = CIdle /\ pending s 0 = false.
Proof. eexists. split; [vm_compute; reflexivity|]. vm_compute. repeat split. Qed.
Print Assumptions C85_polls_for_cause. Print Assumptions C85_no_poll_without_cause. Print Assumptions C85_passes_for_cause. Print Assumptions C85_rest_is_quiet.
