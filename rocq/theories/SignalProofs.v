From Verif Require Import Base LTS WakerRegModel SignalModel SignalSpec.
Set Implicit Arguments.

Section Proofs.
Context {V : Type}.
Implicit Types (s : @sig V) (j : nat) (k : kind).

Lemma writes_app (l1 l2 : list (@sevent V)) : writes (l1 ++ l2) = writes l1 ++ writes l2.
Proof. induction l1 as [|[] l1 IH]; simpl; congruence. Qed.
Lemma returned_app (l1 l2 : list (@sevent V)) : returned (l1 ++ l2) = returned l1 ++ returned l2.
Proof. induction l1 as [|[] l1 IH]; simpl; congruence. Qed.

Lemma wakes_writes ws : writes (map (@VWake V) ws) = [].
Proof. induction ws; simpl; auto. Qed.
Lemma wakes_returned ws : returned (map (@VWake V) ws) = [].
Proof. induction ws; simpl; auto. Qed.
Lemma wakes_rh (l : list (@sevent V)) o ws : register_history l o -> register_history (l ++ map (@VWake V) ws) o.
Proof.
  revert l. induction ws as [|w ws IH]; simpl; intros l H; [now rewrite app_nil_r|].
  change (VWake w :: map (@VWake V) ws) with ([VWake w] ++ map (@VWake V) ws). rewrite app_assoc. apply IH. now constructor.
Qed.
Lemma wakes_fc (l : list (@sevent V)) ws : fresh_changes l -> fresh_changes (l ++ map (@VWake V) ws).
Proof.
  revert l. induction ws as [|w ws IH]; simpl; intros l H; [now rewrite app_nil_r|].
  change (VWake w :: map (@VWake V) ws) with ([VWake w] ++ map (@VWake V) ws). rewrite app_assoc. apply IH. now constructor.
Qed.

Ltac sc H := repeat match type of H with
  | context [match ?x with _ => _ end] => destruct x eqn:?; try discriminate
  end; try discriminate; try (injection H as <-).
Ltac ucase := unfold upd in *; repeat match goal with
  | |- context [Nat.eqb ?x ?y] => destruct (Nat.eqb_spec x y); try subst
  | H : context [Nat.eqb ?x ?y] |- _ => destruct (Nat.eqb_spec x y); try subst
  end; simpl in *.

(** ** One reader, of the right kind *)
Definition okind k (p : @qpc V) : bool :=
  match k, p with
  | KSignal, (QSeen _ | QGet _ | QMark _ _ _) => false
  | KWatch, QTake _ => false
  | _, _ => true
  end.
Record Inv1 k s : Prop := {
  A_live : forall j, rd s j <> QNone -> ralive s = true;
  A_one : forall i j, rd s i <> QNone -> rd s j <> QNone -> i = j;
  A_some : ralive s = true -> exists j, rd s j <> QNone;
  A_kind : forall j, okind k (rd s j) = true
}.

Lemma Inv1_new k : Inv1 k sig_new.
Proof. constructor; simpl; try congruence. now destruct k. Qed.

(** A step that moves one existing reader. *)
Lemma Inv1_move k s s' j p : Inv1 k s -> rd s j <> QNone -> rd s' = upd (rd s) j p -> ralive s' = ralive s -> p <> QNone -> okind k p = true -> Inv1 k s'.
Proof.
  intros [L O S K] Hj Er Ea Hp Hk.
  assert (E : forall i, rd s' i <> QNone <-> rd s i <> QNone) by (intros i; rewrite Er; ucase; tauto).
  constructor.
  - intros i Hi. rewrite Ea. apply (L j Hj).
  - intros i i' Hi Hi'. apply O; now apply E.
  - intros H. exists j. now apply E.
  - intros i. rewrite Er. ucase; auto.
Qed.
Lemma Inv1_keep k s s' : Inv1 k s -> rd s' = rd s -> ralive s' = ralive s -> Inv1 k s'.
Proof. intros [L O S K] Er Ea. constructor; rewrite ?Er, ?Ea; auto. Qed.
Arguments Inv1_keep {k s s'}.

Lemma reg_frame s w : rd (do_register s w) = rd s /\ ralive (do_register s w) = ralive s /\ store (do_register s w) = store s /\ wr (do_register s w) = wr s
  /\ seen (do_register s w) = seen s /\ vers (do_register s w) = vers s /\ s_woken (do_register s w) = false /\ swk (do_register s w) = Some w /\
  exists ws, slog (do_register s w) = slog s ++ map VWake ws.
Proof.
  unfold do_register. destruct (wreg_register (swk s) w) as [r ws] eqn:E. simpl. repeat split; eauto.
  unfold wreg_register in E. destruct (swk s) as [w2|]; [destruct (Nat.eqb_spec w2 w)|]; injection E; congruence.
Qed.
Lemma wake_frame s i : rd (do_wake s i) = rd s /\ ralive (do_wake s i) = ralive s /\ store (do_wake s i) = store s /\ wr (do_wake s i) = upd (wr s) i false
  /\ seen (do_wake s i) = seen s /\ vers (do_wake s i) = vers s /\ (s_woken (do_wake s i) = true <-> s_woken s = true \/ swk s <> None) /\ swk (do_wake s i) = None /\
  exists ws, slog (do_wake s i) = slog s ++ map VWake ws.
Proof.
  unfold do_wake, wreg_wake. destruct (swk s) as [w|]; simpl; repeat (split; [reflexivity|]).
  - split; [split; [right; discriminate|reflexivity]|]. split; [reflexivity|]. now exists [w].
  - split; [split; [now left|intros [?|?]; congruence]|]. split; [reflexivity|]. exists []. reflexivity.
Qed.

Lemma Inv1_step k s l s' : Inv1 k s -> sstep k s l = Some s' -> Inv1 k s'.
Proof.
  intros H Hs. destruct l as [i v|i|i|j|j|j|j|j|j w|j|j]; simpl in Hs; unfold rstep in Hs.
  - sc Hs. apply (Inv1_keep H); reflexivity.
  - sc Hs. apply (Inv1_keep H); reflexivity.
  - sc Hs. destruct (wake_frame s i) as (E1 & E2 & _). now apply (Inv1_keep H).
  - sc Hs; [apply (Inv1_keep H); reflexivity|]. destruct H as [L O S K].
    assert (N : forall i, rd s i = QNone) by (intros i; destruct (rd s i) eqn:E; auto; assert (ralive s = true) by (apply (L i); congruence); congruence).
    constructor; simpl; auto.
    + intros a b Ha Hb. ucase; auto; try (rewrite N in *; congruence).
    + intros _. exists j. now rewrite upd_same.
    + intros i. ucase; [now destruct k|auto].
  - sc Hs. destruct H as [L O S K]. constructor; simpl.
    + intros a Ha. exfalso. ucase; [congruence|]. apply n. apply O; congruence.
    + intros a b Ha Hb. exfalso. ucase; try congruence. apply n0. apply O; congruence.
    + discriminate.
    + intros i. ucase; [now destruct k|auto].
  - sc Hs; apply (Inv1_keep H); reflexivity.
  - sc Hs; apply (Inv1_keep H); reflexivity.
  - sc Hs. apply (@Inv1_move KWatch s _ j (QGet None)); auto; congruence.
  - destruct (rd s j) eqn:E; try discriminate; injection Hs as <-; destruct (reg_frame s w) as (E1 & E2 & _);
      (apply (@Inv1_move k s _ j (match k with KSignal => QTake w | KWatch => QSeen w end)); auto; [congruence|simpl; now rewrite E1|destruct k; discriminate|now destruct k]).
  - pose proof (A_kind H j) as Hk. destruct (rd s j) eqn:E; try discriminate.
    + destruct (store s); injection Hs as <-; [apply (@Inv1_move k s _ j QIdle)|apply (@Inv1_move k s _ j (QSleep w))]; auto; try congruence; destruct k; auto.
    + injection Hs as <-. apply (@Inv1_move k s _ j (if seen s then QSleep w else QGet (Some w))); auto; try congruence; destruct k, (seen s); auto; discriminate.
    + destruct (store s) as [v|]; [injection Hs as <-; apply (@Inv1_move k s _ j (QMark o (vers s) v)); auto; try congruence; destruct k; auto|].
      destruct o as [w|]; injection Hs as <-; [apply (@Inv1_move k s _ j (QSleep w))|apply (@Inv1_move k s _ j QIdle)]; auto; try congruence; destruct k; auto.
    + injection Hs as <-. apply (@Inv1_move k s _ j QIdle); auto; try congruence; destruct k; auto.
  - sc Hs. apply (@Inv1_move k s _ j QIdle); auto; try congruence. now destruct k.
Qed.

(** ** The store is a mailbox *)
Lemma Inv2_step k s l s' : register_history (slog s) (store s) -> sstep k s l = Some s' -> register_history (slog s') (store s').
Proof.
  intros H Hs. destruct l as [i v|i|i|j|j|j|j|j|j w|j|j]; simpl in Hs; unfold rstep in Hs.
  - sc Hs. simpl. eapply rh_write; eauto.
  - sc Hs. simpl. eapply rh_clear; eauto.
  - sc Hs. destruct (wake_frame s i) as (_ & _ & E & _ & _ & _ & _ & _ & ws & El). rewrite El, E. now apply wakes_rh.
  - sc Hs; simpl; now apply rh_other.
  - sc Hs; simpl; auto.
  - sc Hs; simpl; [now apply rh_take|now apply rh_empty].
  - sc Hs; simpl. eapply rh_evict; eauto.
  - sc Hs; simpl; auto.
  - destruct (rd s j); try discriminate; injection Hs as <-; simpl; destruct (reg_frame s w) as (_ & _ & E & _ & _ & _ & _ & _ & ws & El); rewrite El, E; now apply wakes_rh.
  - destruct (rd s j); try discriminate.
    + destruct (store s) eqn:E; injection Hs as <-; simpl; [now apply rh_take|auto].
    + injection Hs as <-. simpl. auto.
    + destruct (store s) eqn:E; [injection Hs as <-; simpl; now rewrite E|]. destruct o; injection Hs as <-; simpl; rewrite ?E; auto. now apply rh_other.
    + injection Hs as <-. simpl. destruct o; now apply rh_other.
  - sc Hs; simpl; auto.
Qed.

(** ** Wake-ups *)
Definition wof (p : @qpc V) : option nat :=
  match p with QTake w | QSleep w | QSeen w => Some w | QGet (Some w) => Some w | QMark (Some w) _ _ => Some w | _ => None end.
Record Inv3 k s : Prop := {
  B_reg : forall j w, wof (rd s j) = Some w -> swk s = Some w \/ s_woken s = true;
  B_av : forall j w, rd s j = QSleep w -> available k s -> s_woken s = true \/ exists i, wr s i = true
}.

(** Steps of one reader that keep waker registration and writers. *)
Lemma Inv3_move k s s' j p : Inv3 k s -> rd s' = upd (rd s) j p -> swk s' = swk s -> s_woken s' = s_woken s -> wr s' = wr s ->
  (forall w, wof p = Some w -> wof (rd s j) = Some w) ->
  (available k s' -> (available k s /\ forall w, p <> QSleep w) \/ (available k s /\ exists w, rd s j = QSleep w) \/ forall i w, rd s' i <> QSleep w) ->
  Inv3 k s'.
Proof.
  intros [B C] Er Ew Es Ewr Hw Hav. constructor.
  - intros i w. rewrite Er, Ew, Es. ucase; eauto.
  - intros i w Hi Ha. destruct (Hav Ha) as [[Ha' Hp]|[[Ha' [w' Hj]]|Hn]].
    + rewrite Es, Ewr. rewrite Er in Hi. ucase; [exfalso; eapply Hp; eauto|]. eapply C; eauto.
    + rewrite Es, Ewr. rewrite Er in Hi. ucase; eapply C; eauto.
    + exfalso. eapply Hn; eauto.
Qed.

Lemma Inv3_step k s l s' : Inv1 k s -> Inv3 k s -> sstep k s l = Some s' -> Inv3 k s'.
Proof.
  intros H1 H Hs.
  assert (One : forall j i w, rd s j <> QNone -> rd s i = QSleep w -> i = j) by (intros j i w Hj Hi; apply (A_one H1); congruence).
  destruct l as [i v|i|i|j|j|j|j|j|j w|j|j]; simpl in Hs; unfold rstep in Hs.
  - sc Hs. destruct H as [B C]. constructor; simpl; auto. intros j w Hj _. right. exists i. now rewrite upd_same.
  - sc Hs. destruct H as [B C]. constructor; simpl; auto.
  - sc Hs. destruct H as [B C]. destruct (wake_frame s i) as (E1 & E2 & E3 & E4 & E5 & E6 & E7 & E8 & _). constructor.
    + intros j w. rewrite E1. intros Hj. right. apply E7. destruct (B j w Hj) as [Hb|Hb]; [right; congruence|now left].
    + intros j w. rewrite E1. intros Hj _. left. apply E7. destruct (B j w) as [Hb|Hb]; [now rewrite Hj|right; congruence|now left].
  - sc Hs; [destruct H as [B C]; constructor; simpl; auto|]. 
    assert (N : forall i, rd s i = QNone) by (intros i; destruct (rd s i) eqn:E; auto; assert (ralive s = true) by (apply (A_live H1 i); congruence); congruence).
    constructor; simpl; intros i w; ucase; try discriminate; rewrite N; discriminate.
  - sc Hs. constructor; simpl; intros i w Hi; ucase; try discriminate; exfalso; apply n; apply (A_one H1); try congruence.
    intros E; rewrite E in Hi; discriminate.
  - sc Hs; destruct H as [B C]; constructor; simpl; auto; try (intros; tauto).
  - sc Hs; destruct H as [B C]; constructor; simpl; auto; try (intros; tauto).
  - sc Hs. eapply (@Inv3_move KWatch s _ j); [exact H| reflexivity.. | |]; [discriminate|]. intros Ha. left. split; [exact Ha|discriminate].
  - assert (Hp : rd s j <> QNone) by (destruct (rd s j); congruence).
    destruct (reg_frame s w) as (E1 & E2 & E3 & E4 & E5 & E6 & E7 & E8 & _).
    assert (s' = set_rd (do_register s w) j (match k with KSignal => QTake w | KWatch => QSeen w end)) as -> by (destruct (rd s j); try discriminate; congruence).
    clear Hs. constructor; simpl; rewrite E1, ?E7, ?E8.
    + intros i w' Hi. left. ucase; [destruct k; simpl in Hi; congruence|]. exfalso. apply n. apply (A_one H1); [|exact Hp]. intros E; rewrite E in Hi; discriminate.
    + intros i w' Hi. exfalso. ucase; [destruct k; discriminate|]. apply n. eapply One; eauto.
  - destruct (rd s j) eqn:E; try discriminate.
    + destruct (store s) eqn:Est; injection Hs as <-; (eapply (@Inv3_move k s _ j); [exact H|reflexivity..| |]); simpl; try (rewrite E; simpl; congruence).
      * intros Ha. right. right. intros i w'. simpl. ucase; [discriminate|]. intros Hi. apply n. eapply One; eauto. congruence.
      * destruct k; simpl; [congruence|]. intros [? _]; congruence.
    + injection Hs as <-. (eapply (@Inv3_move k s _ j); [exact H|reflexivity..| |]); simpl.
      * rewrite E. simpl. destruct (seen s); simpl; auto.
      * destruct (seen s) eqn:Es; [|intros Ha; left; split; [exact Ha|discriminate]].
        assert (k = KWatch) as -> by (pose proof (A_kind H1 j) as Hk; rewrite E in Hk; destruct k; [discriminate|reflexivity]).
        simpl. intros [_ ?]. congruence.
    + assert (k = KWatch) as -> by (pose proof (A_kind H1 j) as Hk; rewrite E in Hk; destruct k; [discriminate|reflexivity]).
      destruct (store s) as [v|] eqn:Est; [injection Hs as <-|destruct o as [w|]; injection Hs as <-];
        (eapply (@Inv3_move KWatch s _ j); [exact H|reflexivity..| |]); simpl; rewrite ?E, ?Est; auto; try congruence.
      * intros Ha. left. split; [exact Ha|discriminate].
      * intros [? _]; congruence.
      * intros [? _]; congruence.
    + injection Hs as <-. assert (k = KWatch) as -> by (pose proof (A_kind H1 j) as Hk; rewrite E in Hk; destruct k; [discriminate|reflexivity]).
      (eapply (@Inv3_move KWatch s _ j); [exact H|reflexivity..| |]); simpl; [discriminate|]. intros [_ ?]. discriminate.
  - destruct (rd s j) eqn:E; try discriminate. injection Hs as <-.
    (eapply (@Inv3_move k s _ j); [exact H|reflexivity..| |]); simpl; [discriminate|]. intros Ha. left. split; [exact Ha|discriminate].
Qed.

(** ** Watch: versions *)
Record Inv4 s : Prop := {
  W_store : store s = lasto (writes (slog s));
  W_vers : vers s = length (writes (slog s));
  W_le : forall m, In m (returned (slog s)) -> m <= vers s;
  W_lt : seen s = false -> forall m, In m (returned (slog s)) -> m < vers s;
  W_get : forall j w, rd s j = QGet (Some w) -> seen s = false;
  W_mark : forall j w n v, rd s j = QMark (Some w) n v -> forall m, In m (returned (slog s)) -> m < n;
  W_val : forall j o n v, rd s j = QMark o n v -> n <= vers s /\ exists m, n = S m /\ nth_error (writes (slog s)) m = Some v;
  W_fresh : fresh_changes (slog s);
  W_log : forall j n v, In (VGet j n v) (slog s) \/ In (VChg j n v) (slog s) -> exists m, n = S m /\ nth_error (writes (slog s)) m = Some v
}.

Lemma Inv4_new : Inv4 sig_new.
Proof. constructor; simpl; try congruence; try tauto. constructor. Qed.

Lemma nth_app1 {A} (l r : list A) m v : nth_error l m = Some v -> nth_error (l ++ r) m = Some v.
Proof. intros H. rewrite nth_error_app1; [exact H|]. apply nth_error_Some. congruence. Qed.

(** Steps that append only neutral events and move readers to neutral positions. *)
Lemma Inv4_frame s s' es : Inv4 s -> store s' = store s -> vers s' = vers s -> seen s' = seen s -> slog s' = slog s ++ es ->
  writes es = [] -> returned es = [] -> fresh_changes (slog s ++ es) ->
  (forall j w, rd s' j = QGet (Some w) -> rd s j = QGet (Some w) \/ seen s = false) ->
  (forall j o n v, rd s' j = QMark o n v -> rd s j = QMark o n v) -> Inv4 s'.
Proof.
  intros [] E1 E2 E3 E4 Ew Er Ef Hg Hm.
  assert (F1 : writes (slog s') = writes (slog s)) by (rewrite E4, writes_app, Ew, app_nil_r; reflexivity).
  assert (F2 : returned (slog s') = returned (slog s)) by (rewrite E4, returned_app, Er, app_nil_r; reflexivity).
  constructor; rewrite ?E1, ?E2, ?E3, ?F1, ?F2; auto.
  - intros j w Hj. destruct (Hg j w Hj); eauto.
  - intros j w n v Hj. eauto.
  - intros j o n v Hj. eauto.
  - now rewrite E4.
  - rewrite E4. intros j n v Hj. apply (W_log0 j n v).
    assert (N : forall e, In e es -> match e with VGet _ _ _ | VChg _ _ _ => False | _ => True end).
    { intros e He. destruct (in_split _ _ He) as (l1 & l2 & ->). rewrite returned_app in Er. apply app_eq_nil in Er as [_ Er]. destruct e; auto; discriminate. }
    destruct Hj as [Hj|Hj]; apply in_app_iff in Hj as [Hj|Hj]; auto; apply N in Hj; destruct Hj.
Qed.

Lemma Inv4_step s l s' : Inv1 KWatch s -> Inv4 s -> sstep KWatch s l = Some s' -> Inv4 s'.
Proof.
  intros H1 H Hs.
  destruct l as [i v|i|i|j|j|j|j|j|j w|j|j]; simpl in Hs; unfold rstep in Hs; try discriminate.
  - sc Hs. destruct H. assert (F1 : writes (slog s ++ [VWrite i v]) = writes (slog s) ++ [v]) by (rewrite writes_app; reflexivity).
    assert (F2 : returned (slog s ++ [VWrite i v]) = returned (slog s)) by (rewrite returned_app; apply app_nil_r).
    constructor; simpl; rewrite ?F1, ?F2.
    + now rewrite lasto_snoc.
    + rewrite app_length. simpl. lia.
    + intros m Hm. specialize (W_le0 m Hm). lia.
    + intros _ m Hm. specialize (W_le0 m Hm). lia.
    + reflexivity.
    + eauto.
    + intros j o n x Hj. destruct (W_val0 j o n x Hj) as (Hn & m & -> & Hm). split; [lia|]. exists m. split; [reflexivity|now apply nth_app1].
    + now constructor.
    + intros j n x Hj. destruct (W_log0 j n x) as (m & -> & Hm); [|exists m; split; [reflexivity|now apply nth_app1]].
      destruct Hj as [Hj|Hj]; apply in_app_iff in Hj as [Hj|[Hj|[]]]; auto; discriminate.
  - sc Hs. destruct (wake_frame s i) as (E1 & E2 & E3 & E4 & E5 & E6 & E7 & E8 & ws & El).
    eapply (@Inv4_frame s _ (map VWake ws) H); auto using wakes_writes, wakes_returned; [apply wakes_fc; exact (W_fresh H)|..]; intros *; rewrite E1; auto.
  - sc Hs.
    + eapply (@Inv4_frame s _ _ H); try reflexivity; simpl; auto. constructor; [exact I|exact (W_fresh H)].
    + eapply (@Inv4_frame s _ _ H); try reflexivity; simpl; auto; [constructor; [exact I|exact (W_fresh H)]|..]; intros *; ucase; auto; discriminate.
  - sc Hs. eapply (@Inv4_frame s _ [] H); try reflexivity; simpl; rewrite ?app_nil_r; auto; [exact (W_fresh H)|..]; intros *; ucase; auto; discriminate.
  - sc Hs. eapply (@Inv4_frame s _ [] H); try reflexivity; simpl; rewrite ?app_nil_r; auto; [exact (W_fresh H)|..]; intros *; ucase; auto; discriminate.
  - assert (Hp : rd s j = QIdle \/ exists w', rd s j = QSleep w') by (destruct (rd s j); try discriminate; eauto).
    destruct (reg_frame s w) as (E1 & E2 & E3 & E4 & E5 & E6 & E7 & E8 & ws & El).
    assert (s' = set_rd (do_register s w) j (QSeen w)) as -> by (destruct (rd s j); try discriminate; congruence). clear Hs.
    eapply (@Inv4_frame s _ (map VWake ws) H); simpl; auto using wakes_writes, wakes_returned; [apply wakes_fc; exact (W_fresh H)|..]; intros *; rewrite E1; ucase; auto; discriminate.
  - destruct (rd s j) eqn:E; try discriminate.
    + pose proof (A_kind H1 j) as Hk; rewrite E in Hk; discriminate.
    + injection Hs as <-. eapply (@Inv4_frame s _ [] H); try reflexivity; simpl; rewrite ?app_nil_r; auto; [exact (W_fresh H)|..]; intros *; ucase; auto; destruct (seen s) eqn:Es; auto; discriminate.
    + destruct (store s) as [v|] eqn:Est.
      * injection Hs as <-. pose proof H as H0. destruct H. constructor; simpl; auto.
        -- intros i w. ucase; [discriminate|eauto].
        -- intros i w n x. ucase; [|eauto]. intros [= -> <- <-]. apply W_lt0. eapply W_get0; eauto.
        -- intros i o' n x. ucase; [|eauto]. intros [= <- <- <-]. split; [lia|]. 
           rewrite W_vers0. destruct (writes (slog s)) as [|x l _] using rev_ind; [rewrite Est in W_store0; discriminate|].
           rewrite Est, lasto_snoc in W_store0. injection W_store0 as ->. exists (length l). rewrite app_length. simpl. split; [lia|].
           rewrite nth_error_app2, Nat.sub_diag; auto.
      * destruct o as [w|]; injection Hs as <-.
        -- eapply (@Inv4_frame s _ [] H); try reflexivity; simpl; rewrite ?app_nil_r; auto; [exact (W_fresh H)|..]; intros *; ucase; auto; discriminate.
        -- eapply (@Inv4_frame s _ _ H); try reflexivity; simpl; auto; [constructor; [exact I|exact (W_fresh H)]|..]; intros *; ucase; auto; discriminate.
    + injection Hs as <-. pose proof H as H0. destruct H. destruct (W_val0 j o n v E) as (Hn & m & -> & Hm).
      set (e := match o with Some _ => VChg j (S m) v | None => VGet j (S m) v end).
      assert (F1 : writes (slog s ++ [e]) = writes (slog s)) by (rewrite writes_app; subst e; destruct o; apply app_nil_r).
      assert (F2 : returned (slog s ++ [e]) = returned (slog s) ++ [S m]) by (rewrite returned_app; subst e; destruct o; reflexivity).
      assert (Oth : forall i, i <> j -> rd s i = QNone).
      { intros i Hi. destruct (rd s i) eqn:Ei; auto; exfalso; apply Hi; apply (A_one H1); congruence. }
      constructor; simpl; rewrite ?F1, ?F2; auto.
      * intros m' Hm'. apply in_app_iff in Hm' as [Hm'|[<-|[]]]; auto.
      * discriminate.
      * intros i w. ucase; [discriminate|]. intros Hi. rewrite Oth in Hi by assumption. discriminate.
      * intros i w n x. ucase; [discriminate|]. intros Hi. rewrite Oth in Hi by assumption. discriminate.
      * intros i o' n x. ucase; [discriminate|eauto].
      * subst e. destruct o as [w|]; [|now constructor]. constructor; [exact W_fresh0|]. eapply W_mark0; eauto.
      * intros i n x Hi.
        assert (Hx : (In (VGet i n x) (slog s) \/ In (VChg i n x) (slog s)) \/ (n = S m /\ x = v)).
        { destruct Hi as [Hi|Hi]; apply in_app_iff in Hi as [Hi|[Hi|[]]]; auto; subst e; destruct o; try discriminate; injection Hi; auto. }
        destruct Hx as [Hx|[-> ->]]; [apply (W_log0 _ _ _ Hx)|exists m; auto].
  - sc Hs. eapply (@Inv4_frame s _ [] H); try reflexivity; simpl; rewrite ?app_nil_r; auto; [exact (W_fresh H)|..]; intros *; ucase; auto; discriminate.
Qed.

(** ** Reachable states *)
Lemma Inv1_reach k s : sreach k s -> Inv1 k s.
Proof. apply reach_inv; [apply Inv1_new|]. intros s1 l s2. apply Inv1_step. Qed.
Lemma Inv2_reach k s : sreach k s -> register_history (slog s) (store s).
Proof. apply (reach_inv (fun s => register_history (slog s) (store s))); [constructor|]. intros s1 l s2. apply Inv2_step. Qed.
Lemma Inv3_reach k s : sreach k s -> Inv3 k s.
Proof.
  intros Hr. enough (Inv1 k s /\ Inv3 k s) by tauto. revert s Hr. apply reach_inv.
  - split; [apply Inv1_new|]. constructor; simpl; discriminate.
  - intros s1 l s2 [H1 H3] Hs. split; [eapply Inv1_step; eauto|eapply Inv3_step; eauto].
Qed.
Lemma Inv4_reach s : sreach KWatch s -> Inv4 s.
Proof.
  intros Hr. enough (Inv1 KWatch s /\ Inv4 s) by tauto. revert s Hr. apply reach_inv.
  - split; [apply Inv1_new|apply Inv4_new].
  - intros s1 l s2 [H1 H3] Hs. split; [eapply Inv1_step; eauto|eapply Inv4_step; eauto].
Qed.

(** No write happens while the reader is between reading the value and marking it seen. *)
Definition quiet_mark s (l : @slabel V) : Prop :=
  match l with SWrite _ _ => forall j o n v, rd s j <> QMark o n v | _ => True end.
Record Inv5 s : Prop := {
  Z_seen : seen s = true -> In (vers s) (returned (slog s));
  Z_mark : forall j o n v, rd s j = QMark o n v -> n = vers s
}.
Lemma Inv5_step s l s' : Inv1 KWatch s -> Inv5 s -> quiet_mark s l -> sstep KWatch s l = Some s' -> Inv5 s'.
Proof.
  intros H1 [Z M] Hq Hs.
  assert (Fr : forall es, seen s' = seen s -> vers s' = vers s -> slog s' = slog s ++ es ->
     (forall j o n v, rd s' j = QMark o n v -> rd s j = QMark o n v) -> Inv5 s').
  { intros es E1 E2 E3 E4. constructor; rewrite ?E1, ?E2, ?E3.
    - intros Hx. rewrite returned_app. apply in_app_iff. left. auto.
    - intros j o n v Hj. eauto. }
  destruct l as [i v|i|i|j|j|j|j|j|j w|j|j]; simpl in Hs; unfold rstep in Hs; try discriminate.
  - sc Hs. constructor; simpl; [discriminate|]. intros j o n x Hj. exfalso. eapply Hq; eauto.
  - sc Hs. destruct (wake_frame s i) as (E1 & E2 & E3 & E4 & E5 & E6 & E7 & E8 & ws & El). eapply Fr; eauto. intros *. rewrite E1. auto.
  - sc Hs; eapply Fr; try reflexivity; simpl; auto. intros *; ucase; auto; discriminate.
  - sc Hs; apply (Fr []); try reflexivity; simpl; rewrite ?app_nil_r; auto. intros *; ucase; auto; discriminate.
  - sc Hs; apply (Fr []); try reflexivity; simpl; rewrite ?app_nil_r; auto. intros *; ucase; auto; discriminate.
  - destruct (reg_frame s w) as (E1 & E2 & E3 & E4 & E5 & E6 & E7 & E8 & ws & El).
    assert (s' = set_rd (do_register s w) j (QSeen w)) as -> by (destruct (rd s j); try discriminate; congruence).
    apply (Fr (map VWake ws)); simpl; auto. intros *. rewrite E1. ucase; auto; discriminate.
  - destruct (rd s j) eqn:E; try discriminate.
    + pose proof (A_kind H1 j) as Hk; rewrite E in Hk; discriminate.
    + injection Hs as <-. apply (Fr []); try reflexivity; simpl; rewrite ?app_nil_r; auto. intros *; ucase; auto. destruct (seen s); discriminate.
    + destruct (store s) as [v|] eqn:Est; [injection Hs as <-|destruct o as [w|]; injection Hs as <-].
      * constructor; simpl; auto. intros i o' n x. ucase; [congruence|eauto].
      * apply (Fr []); try reflexivity; simpl; rewrite ?app_nil_r; auto. intros *; ucase; auto; discriminate.
      * eapply Fr; try reflexivity; simpl; auto. intros *; ucase; auto; discriminate.
    + injection Hs as <-. rewrite (M _ _ _ _ E). constructor; simpl.
      * intros _. rewrite returned_app. apply in_app_iff. right. destruct o; now left.
      * intros i o' m x. ucase; [discriminate|]. eauto.
  - sc Hs; apply (Fr []); try reflexivity; simpl; rewrite ?app_nil_r; auto. intros *; ucase; auto; discriminate.
Qed.
Lemma Inv5_reach s : sgreach KWatch quiet_mark s -> Inv5 s.
Proof.
  intros Hr. enough (Inv1 KWatch s /\ Inv5 s) by tauto. revert s Hr. apply greach_inv.
  - split; [apply Inv1_new|]. constructor; simpl; discriminate.
  - intros s1 l s2 [H1 H3] Hg Hs. split; [eapply Inv1_step; eauto|eapply Inv5_step; eauto].
Qed.
End Proofs.
