From Verif Require Import Base LTS ArbiterModel ArbiterSpec ArbiterProofs BusModel BusSpec.
Set Implicit Arguments.

(** ** Traces *)
Inductive done : list op -> list ev -> Prop :=
| dn_nil : done [] []
| dn_bus n ops l : done ops l -> done (OBus n :: ops) (EvCall (COp n) :: EvDone None :: l)
| dn_delay ns ops l : done ops l -> done (ODelay ns :: ops) (EvCall CFlush :: EvDone None :: EvDelay ns :: l).

Lemma done_trace d t : done d t -> forall rest l r, ops_trace rest l r -> ops_trace (d ++ rest) (t ++ l) r.
Proof. induction 1; simpl; intros rest l' r H'; [exact H'| |]; constructor; auto. Qed.
Lemma done_app d t d' t' : done d t -> done d' t' -> done (d ++ d') (t ++ t').
Proof. induction 1; simpl; intros H'; [exact H'| |]; constructor; auto. Qed.
Lemma some_trace ops : exists l, ops_trace ops l None.
Proof. induction ops as [|[n|ns] ops [l IH]]; [exists []|eexists|eexists]; econstructor; eauto. Qed.
Lemma done_all d t : done d t -> ops_trace d t None.
Proof. intros H. rewrite <- (app_nil_r d), <- (app_nil_r t). eapply done_trace; eauto. constructor. Qed.

Lemma first_err_ok r f c : outcome r f c (first_err r f c).
Proof. destruct r, f, c; constructor. Qed.
Lemma st_full' ops l r f c : ops_trace ops l r ->
  spi_trace ops ([EvLow None] ++ l ++ [EvCall CFlush; EvDone f; EvHigh c; EvRet (first_err r f c)]).
Proof. intros H. eapply st_full; eauto. apply first_err_ok. Qed.
(** what device has done so far, by program counter *)
Definition spi_rel (ops : list op) (l : list ev) (p : bpc) : Prop :=
  match p with
  | BLow => l = []
  | BNext rest | BSleep rest => exists d t, ops = d ++ rest /\ done d t /\ l = EvLow None :: t
  | BRun rest => exists d t n, ops = d ++ OBus n :: rest /\ done d t /\ l = EvLow None :: t ++ [EvCall (COp n)]
  | BPre ns rest => exists d t, ops = d ++ ODelay ns :: rest /\ done d t /\ l = EvLow None :: t ++ [EvCall CFlush]
  | BFail e => exists t, ops_trace ops t (Some e) /\ l = EvLow None :: t
  | BFl r => exists t, ops_trace ops t r /\ l = EvLow None :: t ++ [EvCall CFlush]
  | BHi r f => exists t, ops_trace ops t r /\ l = EvLow None :: t ++ [EvCall CFlush; EvDone f]
  | BEnd r => spi_trace ops (l ++ [EvRet r])
  | _ => False
  end.
Definition i2c_rel (ops : list op) (l : list ev) (p : bpc) : Prop :=
  match p with
  | BI => l = [] /\ exists n, ops = [OBus n]
  | BIRun => exists n, ops = [OBus n] /\ l = [EvCall (COp n)]
  | BEnd r => i2c_trace ops (l ++ [EvRet r])
  | _ => False
  end.
Definition rel0 (k : dkind) (ops : list op) (l : list ev) (p : bpc) : Prop :=
  match k with
  | KSpi _ => spi_rel ops l p
  | KI2c _ => i2c_rel ops l p
  | KDirect => p = BIdle /\ exists n, l = repeat EvUse n
  end.
Definition rel (k : dkind) (ops : list op) (l : list ev) (p : bpc) : Prop :=
  match k with
  | KDirect => rel0 k ops l p
  | _ => exists l', l = EvGot ops :: l' /\ rel0 k ops l' p
  end.
Lemma rel_lift k ops p p' es : (forall l, rel0 k ops l p -> rel0 k ops (l ++ es) p') -> forall l, rel k ops l p -> rel k ops (l ++ es) p'.
Proof. intros H l. destruct k; simpl; [| |apply H]; intros (l' & -> & R); exists (l' ++ es); split; auto; now apply H. Qed.

Lemma spi_finish ops l t r : ops_trace ops t r -> l = EvLow None :: t -> exists rest, rest <> [] /\ spi_trace ops (l ++ rest).
Proof.
  intros H ->. exists [EvCall CFlush; EvDone None; EvHigh None; EvRet (first_err r None None)]. split; [discriminate|].
  exact (@st_full' ops t r None None H).
Qed.
Lemma rel_prefix k ops l p : rel k ops l p -> visit_prefix k ops l.
Proof.
  unfold visit_prefix. destruct k as [b|b|]; simpl.
  - intros (l0 & -> & H). revert l0 H. intros l H. assert (D : exists rest, rest <> [] /\ spi_trace ops (l ++ rest)).
    { destruct p as [| | |rest|rest|ns rest|rest|e|r|r f|r| |]; simpl in H; try contradiction.
      - subst l. exists [EvLow (Some 0); EvRet (Some (BCs 0))]. split; [discriminate|]. constructor.
      - destruct H as (d & t & -> & Hd & ->). destruct (some_trace rest) as [l Hl].
        destruct (@spi_finish (d ++ rest) _ (t ++ l) None (done_trace Hd Hl) eq_refl) as (re & N & R).
        exists (l ++ re). split; [destruct l; simpl; congruence|]. simpl in *. now rewrite app_assoc.
      - destruct H as (d & t & n & -> & Hd & ->). destruct (some_trace rest) as [l Hl].
        destruct (@spi_finish (d ++ OBus n :: rest) _ _ None (done_trace Hd (ot_ok n Hl)) eq_refl) as (re & N & R).
        exists (EvDone None :: l ++ re). split; [discriminate|]. simpl in *. rewrite <- app_assoc in *. exact R.
      - destruct H as (d & t & -> & Hd & ->). destruct (some_trace rest) as [l Hl].
        destruct (@spi_finish (d ++ ODelay ns :: rest) _ _ None (done_trace Hd (ot_delay ns Hl)) eq_refl) as (re & N & R).
        exists (EvDone None :: EvDelay ns :: l ++ re). split; [discriminate|]. simpl in *. rewrite <- app_assoc in *. exact R.
      - destruct H as (d & t & -> & Hd & ->). destruct (some_trace rest) as [l Hl].
        destruct (@spi_finish (d ++ rest) _ (t ++ l) None (done_trace Hd Hl) eq_refl) as (re & N & R).
        exists (l ++ re). split; [destruct l; simpl; congruence|]. simpl in *. now rewrite app_assoc.
      - destruct H as (t & Ht & ->). eapply spi_finish; eauto.
      - destruct H as (t & Ht & ->). exists [EvDone None; EvHigh None; EvRet (first_err r None None)]. split; [discriminate|].
        simpl. rewrite <- app_assoc. exact (@st_full' ops t r None None Ht).
      - destruct H as (t & Ht & ->). exists [EvHigh None; EvRet (first_err r f None)]. split; [discriminate|].
        simpl. rewrite <- app_assoc. exact (@st_full' ops t r f None Ht).
      - exists [EvRet r]. split; [discriminate|]. exact H. }
    destruct D as (re & N & R). exists re. split; [exact N|]. simpl. eapply vi_spi; eauto.
  - intros (l0 & -> & H). revert H. destruct p as [| | | | | | | | | |r| |]; simpl; try contradiction.
    + intros H. exists [EvRet r]. split; [discriminate|]. eapply vi_i2c; eauto.
    + intros (-> & n & ->). exists [EvCall (COp n); EvDone None; EvRet None]. split; [discriminate|]. eapply vi_i2c; [reflexivity|]. exact (it_full n None).
    + intros (n & -> & ->). exists [EvDone None; EvRet None]. split; [discriminate|]. eapply vi_i2c; [reflexivity|]. exact (it_full n None).
  - intros [_ [n ->]]. exists [EvEnd]. split; [discriminate|]. now constructor.
Qed.

(** ** The arbiter under the devices *)
Implicit Types a : @arb unit.
Definition client_of (l : alabel (V := unit)) : nat :=
  match l with AAccess j | APoll j _ | AFinish j | ACancel j | ATry j | ARelease j | ASet j _ => j end.
Lemma cl_remove_link (a : @arb unit) j : cl (remove_link a j) = cl a.
Proof. unfold remove_link. now destruct (a_link (cl a j)). Qed.
Lemma astep_other a l a' k : astep a l = Some a' -> k <> client_of l -> a_pc (cl a' k) = a_pc (cl a k).
Proof.
  intros E N. destruct l as [j|j w|j|j|j|j|j v]; simpl in *; destruct (a_pc (cl a j)) eqn:P; try discriminate; injection E as <-; simpl;
    rewrite ?cl_remove_link, ?upd_other; auto.
  - unfold do_poll. destruct (_ && _)%bool; simpl; [now rewrite upd_other|]. destruct (a_link (cl a j)); simpl; rewrite ?upd_other; auto.
  - unfold do_try. destruct (_ && _)%bool; simpl; rewrite ?upd_other; auto.
  - unfold do_release. simpl. destruct (awq a) as [|x q]; simpl; [now rewrite upd_other|].
    unfold upd. destruct (Nat.eqb k x) eqn:E1; [|destruct (Nat.eqb k j) eqn:E2; auto; apply Nat.eqb_eq in E2; congruence].
    apply Nat.eqb_eq in E1. subst x. apply Nat.eqb_neq in N. rewrite N. reflexivity.
Qed.
Lemma astep_access a j a' : astep a (AAccess j) = Some a' -> a_pc (cl a j) = AIdle /\ a_pc (cl a' j) = AWait.
Proof. simpl. destruct (a_pc (cl a j)) eqn:P; try discriminate. injection 1 as <-. simpl. now rewrite upd_same. Qed.
Lemma astep_poll a j w a' : astep a (APoll j w) = Some a' -> a_pc (cl a j) = AWait /\ (a_pc (cl a' j) = AWait \/ a_pc (cl a' j) = AReady).
Proof.
  simpl. destruct (a_pc (cl a j)) eqn:P; try discriminate. injection 1 as <-. split; auto. unfold do_poll. destruct (_ && _)%bool; simpl; [rewrite upd_same; auto|].
  destruct (a_link (cl a j)); simpl; rewrite ?upd_same; auto.
Qed.
Lemma astep_finish a j a' : astep a (AFinish j) = Some a' -> a_pc (cl a j) = AReady /\ a_pc (cl a' j) = AHold.
Proof. simpl. destruct (a_pc (cl a j)) eqn:P; try discriminate. injection 1 as <-. simpl. now rewrite upd_same. Qed.
Lemma astep_cancel a j a' : astep a (ACancel j) = Some a' -> a_pc (cl a j) = AWait /\ a_pc (cl a' j) = AIdle.
Proof. simpl. destruct (a_pc (cl a j)) eqn:P; try discriminate. injection 1 as <-. simpl. rewrite upd_same. now split. Qed.
Lemma astep_try a j a' : astep a (ATry j) = Some a' -> a_pc (cl a j) = AIdle.
Proof. simpl. destruct (a_pc (cl a j)) eqn:P; try discriminate. reflexivity. Qed.
Lemma astep_release (v : unit) a j a' : areach v a -> astep a (ARelease j) = Some a' -> a_pc (cl a j) = AHold /\ a_pc (cl a' j) = AIdle.
Proof.
  intros R E. assert (R' : areach v a') by (eapply reach_step; eauto).
  simpl in E. destruct (a_pc (cl a j)) eqn:P; try discriminate. injection E as <-. split; auto. unfold do_release. simpl. destruct (awq a) as [|x q] eqn:Q; simpl.
  - now rewrite upd_same.
  - assert (x <> j). { intros ->. assert (K : a_link (cl a j) = KQueued) by (apply (I_in (AInv_reach R)); rewrite Q; now left). apply (I_q (AInv_reach R)) in K. congruence. }
    rewrite upd_other by auto. now rewrite upd_same.
Qed.

Section Bus.
Context (kind : nat -> dkind).
Implicit Type s : bus.

Lemma one_on_bus s i j : areach tt (b_arb s) -> on_bus s i -> on_bus s j -> i = j.
Proof. intros R Hi Hj. apply (I_one (AInv_reach R)); now left. Qed.

Definition link_ok (p : bpc) (a : apc) : Prop :=
  match p with BIdle => a = AIdle | BAcc => a = AWait \/ a = AReady | _ => a = AHold end.
Definition pcs_ok s : Prop := forall j,
  match kind j with KDirect => b_pc s j = BIdle | _ => link_ok (b_pc s j) (a_pc (cl (b_arb s) j)) end.
Definition i2c_ops s : Prop := forall j b, kind j = KI2c b -> b_pc s j <> BIdle -> exists n, b_ops s j = [OBus n].

Definition log_ok s : Prop := exists vs,
  (forall v, In v vs -> visit (kind (fst (fst v))) (snd (fst v)) (snd v)) /\
  ((exists j l, on_bus s j /\ b_log s = flat_map flat vs ++ map (pair j) l /\ rel (kind j) (b_ops s j) l (b_pc s j)) \/
   ((forall j, ~ on_bus s j) /\ b_log s = flat_map flat vs)).
Record BInv s : Prop := { B_arb : areach tt (b_arb s); B_pc : pcs_ok s; B_i2c : i2c_ops s; B_log : log_ok s }.

Lemma BInv_new : BInv bus_new.
Proof.
  split; [exists []; reflexivity| | |].
  - intros j. simpl. now destruct (kind j).
  - intros j b _ H. simpl in H. congruence.
  - exists []. split; [intros v []|]. right. split; [|reflexivity]. intros j H. discriminate H.
Qed.

(** A step of the device that has the bus, which emits [e] (none: []). *)
Lemma log_emit s s' j es :
  log_ok s -> areach tt (b_arb s) -> on_bus s j -> b_arb s' = b_arb s -> b_ops s' = b_ops s ->
  b_log s' = b_log s ++ map (pair j) es ->
  (forall l, rel (kind j) (b_ops s j) l (b_pc s j) -> rel (kind j) (b_ops s j) (l ++ es) (b_pc s' j)) ->
  log_ok s'.
Proof.
  intros (vs & V & [(j' & l & H & L & R)|[N _]]) A Hj EA EO EL ER; [|destruct (N _ Hj)].
  assert (j' = j) by (eapply one_on_bus; eauto). subst j'. exists vs. split; [exact V|]. left. exists j, (l ++ es). repeat split.
  - unfold on_bus in *. now rewrite EA.
  - now rewrite EL, L, map_app, app_assoc.
  - rewrite EO. apply ER, R.
Qed.
Lemma on_bus_same s s' : (forall k, a_pc (cl (b_arb s') k) = a_pc (cl (b_arb s) k)) -> forall k, on_bus s' k <-> on_bus s k.
Proof. intros H k. unfold on_bus. now rewrite H. Qed.
(** A step that neither gives nor takes the bus nor touches the one that has it. *)
Lemma log_same s s' j : log_ok s -> ~ on_bus s j -> ~ on_bus s' j ->
  (forall k, k <> j -> a_pc (cl (b_arb s') k) = a_pc (cl (b_arb s) k)) ->
  (forall k, k <> j -> b_pc s' k = b_pc s k /\ b_ops s' k = b_ops s k) -> b_log s' = b_log s -> log_ok s'.
Proof.
  intros (vs & V & H) Hj Hj' EA EP EL. exists vs. split; [exact V|]. destruct H as [(i & l & H & L & R)|[N L]].
  - left. exists i, l. assert (i <> j) by (intros ->; auto). destruct (EP i) as [E1 E2]; auto. repeat split.
    + unfold on_bus in *. now rewrite EA.
    + now rewrite EL.
    + now rewrite E1, E2.
  - right. split; [|now rewrite EL]. intros k. destruct (Nat.eq_dec k j) as [->|Nk]; [exact Hj'|]. unfold on_bus in *. rewrite EA; auto.
Qed.
(** The bus is obtained. *)
Lemma log_take s s' j : log_ok s -> areach tt (b_arb s') -> ~ on_bus s j -> on_bus s' j ->
  (forall k, k <> j -> a_pc (cl (b_arb s') k) = a_pc (cl (b_arb s) k)) -> forall es, b_log s' = b_log s ++ map (pair j) es ->
  rel (kind j) (b_ops s' j) es (b_pc s' j) -> log_ok s'.
Proof.
  intros (vs & V & H) A Hj Hj' EA es EL R. exists vs. split; [exact V|]. left. exists j, es. repeat split; auto. rewrite EL.
  destruct H as [(i & l & H & L & _)|[_ L]]; [|now rewrite L]. exfalso. assert (i <> j) by (intros ->; auto).
  apply H0. eapply one_on_bus; [exact A| |exact Hj']. unfold on_bus in *. now rewrite EA.
Qed.
(** The bus is given back. *)
Lemma log_end s s' j e : log_ok s -> areach tt (b_arb s) -> on_bus s j -> ~ on_bus s' j ->
  (forall k, k <> j -> a_pc (cl (b_arb s') k) = a_pc (cl (b_arb s) k)) -> b_log s' = b_log s ++ [(j, e)] ->
  (forall l, rel (kind j) (b_ops s j) l (b_pc s j) -> visit (kind j) (b_ops s j) (l ++ [e])) -> log_ok s'.
Proof.
  intros (vs & V & [(i & l & H & L & R)|[N _]]) A Hj Hj' EA EL ER; [|destruct (N _ Hj)].
  assert (i = j) by (eapply one_on_bus; eauto). subst i. exists (vs ++ [(j, b_ops s j, l ++ [e])]). split.
  - intros v [Hv|[<-|[]]]%in_app_or; [now apply V|]. simpl. now apply ER.
  - right. split.
    + intros k Hk. destruct (Nat.eq_dec k j) as [->|Nk]; [auto|]. apply Nk. eapply one_on_bus; [exact A| |exact Hj]. unfold on_bus in *. now rewrite <- EA.
    + rewrite EL, L, flat_map_app. simpl. unfold flat at 3. simpl. rewrite map_app. simpl. now rewrite app_nil_r, !app_assoc.
Qed.

Ltac pc_tac P := let j := fresh "i" in intros j; specialize (P j); simpl in *; unfold upd in *; destruct (Nat.eqb_spec j _) as [->|]; auto.

Lemma busy_on s j p : pcs_ok s -> b_pc s j = p -> match p with BIdle | BAcc => False | _ => True end -> on_bus s j.
Proof.
  intros P E H. specialize (P j). unfold on_bus. destruct (kind j) eqn:K; [| |rewrite P in E; subst p; destruct H];
    rewrite E in P; destruct p; try contradiction; exact P.
Qed.
Lemma idle_off s j p : pcs_ok s -> kind j <> KDirect -> b_pc s j = p -> match p with BIdle | BAcc => True | _ => False end -> ~ on_bus s j.
Proof.
  intros P K E H O. specialize (P j). unfold on_bus in O. destruct (kind j); [| |congruence]; rewrite E in P; destruct p; try contradiction; simpl in P; (congruence || (destruct P; congruence)).
Qed.
Lemma not_direct s j p : pcs_ok s -> b_pc s j = p -> p <> BIdle -> kind j <> KDirect.
Proof. intros P E N K. specialize (P j). rewrite K in P. congruence. Qed.

(** a device step that leaves the arbiter alone *)
Lemma step_local s s' j es p :
  BInv s -> b_pc s j = p -> match p with BIdle | BAcc => False | _ => True end ->
  b_arb s' = b_arb s -> b_ops s' = b_ops s -> (forall k, k <> j -> b_pc s' k = b_pc s k) ->
  match b_pc s' j with BIdle | BAcc => False | _ => True end ->
  b_log s' = b_log s ++ map (pair j) es ->
  (forall l, rel0 (kind j) (b_ops s j) l p -> rel0 (kind j) (b_ops s j) (l ++ es) (b_pc s' j)) -> BInv s'.
Proof.
  intros [A P I L] E Hp EA EO EP Hp' EL ER0. pose proof (rel_lift _ _ _ _ _ ER0) as ER. clear ER0.
  assert (O : on_bus s j) by (eapply busy_on; eauto).
  assert (K : kind j <> KDirect) by (eapply not_direct; eauto; intros ->; exact Hp).
  split.
  - now rewrite EA.
  - intros k. specialize (P k). rewrite EA. destruct (Nat.eq_dec k j) as [->|N]; [|now rewrite EP].
    destruct (kind j); [| |congruence]; unfold on_bus in O; rewrite O; destruct (b_pc s' j); try contradiction; reflexivity.
  - intros k b Kk N. rewrite EO. apply (I k b Kk). intros Z. destruct (Nat.eq_dec k j) as [->|Nk]; [subst p; rewrite Z in Hp; exact Hp|]. rewrite EP in N; auto.
  - eapply log_emit; eauto. now rewrite E.
Qed.
(** a step that gives the bus back *)
Lemma step_release s s' j e a : BInv s -> on_bus s j -> astep (b_arb s) (ARelease j) = Some a ->
  b_arb s' = a -> b_ops s' = b_ops s -> b_pc s' = upd (b_pc s) j BIdle -> b_log s' = b_log s ++ [(j, e)] ->
  (forall l, rel (kind j) (b_ops s j) l (b_pc s j) -> visit (kind j) (b_ops s j) (l ++ [e])) -> BInv s'.
Proof.
  intros [A P I L] O Ea EA EO EP EL ER. edestruct astep_release as [_ Hi]; [exact A|exact Ea|].
  assert (Ho : forall k, k <> j -> a_pc (cl a k) = a_pc (cl (b_arb s) k)) by (intros k N; eapply astep_other; eauto).
  split.
  - rewrite EA. eapply reach_step; eauto.
  - intros k. specialize (P k). rewrite EA, EP. unfold upd. destruct (Nat.eqb_spec k j) as [->|N].
    + destruct (kind j); auto.
    + now rewrite Ho.
  - intros k b Kk N. rewrite EO. rewrite EP in N. unfold upd in N. destruct (Nat.eqb_spec k j) as [->|Nk]; [congruence|]. eapply I; eauto.
  - eapply log_end; eauto; [unfold on_bus; rewrite EA; congruence|]. intros k N. rewrite EA. now apply Ho.
Qed.

Lemma rel_ret k ops l r : k <> KDirect -> rel k ops l (BEnd r) -> visit k ops (l ++ [EvRet r]).
Proof. intros N H. left. destruct k; simpl in H; try congruence; destruct H as (l' & -> & H); simpl; [eapply vi_spi|eapply vi_i2c]; eauto. Qed.
Lemma rel_cancel k ops l p : rel k ops l p -> visit k ops (l ++ [EvCancel]).
Proof. intros H. right. exists l. split; [reflexivity|]. exact (rel_prefix _ _ _ _ H). Qed.
Lemma BInv_step s l s' : BInv s -> bstep kind s l = Some s' -> BInv s'.
Proof.
  intros B E. pose proof B as [A P I L]. destruct l as [j ops|j w|j|j r lvl|j|j r|j|j r lvl|j|j|l|j|j]; simpl in E.
  - (* LCall *)
    destruct (b_pc s j) eqn:Ep; try discriminate. destruct (call_ok (kind j) ops) eqn:Ck; [|discriminate].
    match type of E with match ?x with _ => _ end = _ => destruct x as [a|] eqn:Ea; [|discriminate] end. injection E as <-.
    assert (Ea' : astep (b_arb s) (AAccess j) = Some a) by exact Ea.
    assert (Kd : kind j <> KDirect) by (intros Z; rewrite Z in Ck; discriminate).
    edestruct astep_access as [H1 H2]; [exact Ea'|].
    assert (Ho : forall k, k <> j -> a_pc (cl a k) = a_pc (cl (b_arb s) k)) by (intros k N; eapply astep_other; eauto).
    split; simpl.
    + eapply reach_step; eauto.
    + intros k. specialize (P k). simpl. unfold upd. destruct (Nat.eqb_spec k j) as [->|N]; [|now rewrite Ho].
      destruct (kind j); try congruence; simpl; auto.
    + intros k b Kk N. simpl in *. unfold upd in *. destruct (Nat.eqb_spec k j) as [->|Nk]; [|eapply I; eauto].
      rewrite Kk in Ck. simpl in Ck. destruct ops as [|[n|] [|]]; try discriminate. eauto.
    + apply (@log_same s _ j); auto; simpl.
      * eapply idle_off; eauto. exact Logic.I.
      * unfold on_bus. simpl. congruence.
      * intros k N. now rewrite !upd_other.
  - (* LPoll *)
    destruct (b_pc s j) eqn:Ep; try discriminate.
    match type of E with match ?x with _ => _ end = _ => destruct x as [a|] eqn:Ea; [|discriminate] end. injection E as <-.
    assert (Ea' : astep (b_arb s) (APoll j w) = Some a) by exact Ea. edestruct astep_poll as [H1 H2]; [exact Ea'|].
    assert (Kd : kind j <> KDirect) by (eapply not_direct; eauto; discriminate).
    assert (Ho : forall k, k <> j -> a_pc (cl a k) = a_pc (cl (b_arb s) k)) by (intros k N; eapply astep_other; eauto).
    split; simpl.
    + eapply reach_step; eauto.
    + intros k. specialize (P k). simpl. destruct (Nat.eq_dec k j) as [->|N]; [|now rewrite Ho].
      destruct (kind j); try congruence; rewrite Ep; simpl; auto.
    + exact I.
    + apply (@log_same s _ j); auto; simpl.
      * eapply idle_off; eauto. exact Logic.I.
      * unfold on_bus. simpl. destruct H2; congruence.
  - (* LGot *)
    destruct (b_pc s j) eqn:Ep; try discriminate.
    match type of E with match ?x with _ => _ end = _ => destruct x as [a|] eqn:Ea; [|discriminate] end. injection E as <-.
    assert (Ea' : astep (b_arb s) (AFinish j) = Some a) by exact Ea. edestruct astep_finish as [H1 H2]; [exact Ea'|].
    assert (Kd : kind j <> KDirect) by (eapply not_direct; eauto; discriminate).
    assert (Ho : forall k, k <> j -> a_pc (cl a k) = a_pc (cl (b_arb s) k)) by (intros k N; eapply astep_other; eauto).
    assert (R' : areach tt a) by (eapply reach_step; eauto).
    split; simpl.
    + exact R'.
    + intros k. specialize (P k). simpl. unfold upd. destruct (Nat.eqb_spec k j) as [->|N]; [|now rewrite Ho].
      destruct (kind j); try congruence; simpl; auto.
    + intros k b Kk N. simpl in *. unfold upd in N. destruct (Nat.eqb_spec k j) as [->|Nk]; [eapply I; eauto; rewrite Ep; discriminate|eapply I; eauto].
    + apply (@log_take s _ j) with (es := [EvGot (b_ops s j)]); auto; simpl.
      * eapply idle_off; eauto. exact Logic.I.
      * rewrite upd_same. destruct (kind j) eqn:K; simpl; try congruence; exists []; (split; [reflexivity|]); auto. simpl. split; auto. eapply I; eauto. rewrite Ep. discriminate.
  - (* LLow *)
    destruct (b_pc s j) eqn:Ep; try discriminate. injection E as <-.
    eapply (@step_local s _ j [EvLow r] BLow); eauto; simpl; rewrite ?upd_same; auto.
    + intros k N. now rewrite upd_other.
    + now destruct r.
    + intros l H. destruct (kind j) as [b|b|]; simpl in *; [|contradiction|destruct H; discriminate].
      subst l. destruct r as [e|]; simpl; [constructor|]. exists [], []. repeat split. constructor.
  - (* LStart *)
    destruct (b_pc s j) as [| | |[|[n|ns] ops]| | | |e| | | | |] eqn:Ep; try discriminate.
    + injection E as <-. eapply (@step_local s _ j [EvCall CFlush]); eauto; simpl; rewrite ?upd_same; auto; [intros k N; now rewrite upd_other|].
      intros l H. destruct (kind j); simpl in *; [|contradiction|destruct H; discriminate]. destruct H as (d & t & -> & Hd & ->).
      rewrite app_nil_r. exists t. split; [now apply done_all|reflexivity].
    + injection E as <-. eapply (@step_local s _ j [EvCall (COp n)]); eauto; simpl; rewrite ?upd_same; auto; [intros k N; now rewrite upd_other|].
      intros l H. destruct (kind j); simpl in *; [|contradiction|destruct H; discriminate]. destruct H as (d & t & -> & Hd & ->).
      exists d, t, n. repeat split; auto.
    + injection E as <-. eapply (@step_local s _ j [EvCall CFlush]); eauto; simpl; rewrite ?upd_same; auto; [intros k N; now rewrite upd_other|].
      intros l H. destruct (kind j); simpl in *; [|contradiction|destruct H; discriminate]. destruct H as (d & t & -> & Hd & ->).
      exists d, t. repeat split; auto.
    + injection E as <-. eapply (@step_local s _ j [EvCall CFlush]); eauto; simpl; rewrite ?upd_same; auto; [intros k N; now rewrite upd_other|].
      intros l H. destruct (kind j); simpl in *; [|contradiction|destruct H; discriminate]. destruct H as (t & Ht & ->). exists t. split; auto.
    + destruct (b_ops s j) as [|[n|] [|]] eqn:Eo; try discriminate. injection E as <-.
      eapply (@step_local s _ j [EvCall (COp n)]); eauto; simpl; rewrite ?upd_same; auto; [intros k N; now rewrite upd_other|].
      intros l H. destruct (kind j); simpl in *; [contradiction| |destruct H; discriminate]. destruct H as [-> _]. rewrite Eo. eauto.
  - (* LDone *)
    destruct (b_pc s j) as [| | | |ops|ns ops| | |res| | | |] eqn:Ep; try discriminate.
    + injection E as <-. eapply (@step_local s _ j [EvDone r]); eauto; simpl; rewrite ?upd_same; auto; [intros k N; now rewrite upd_other|now destruct r|].
      intros l H. destruct (kind j); simpl in *; [|contradiction|destruct H; discriminate]. destruct H as (d & t & n & Eo & Hd & ->).
      destruct r as [e|]; simpl; rewrite Eo.
      * exists (t ++ [EvCall (COp n); EvDone (Some e)]). split; [|simpl; now rewrite <- app_assoc]. eapply done_trace; eauto. constructor.
      * exists (d ++ [OBus n]), (t ++ [EvCall (COp n); EvDone None]). rewrite <- !app_assoc. repeat split; auto. apply done_app; auto. repeat constructor.
    + destruct r as [e|]; injection E as <-.
      * eapply (@step_local s _ j [EvDone (Some e)]); eauto; simpl; rewrite ?upd_same; auto; [intros k N; now rewrite upd_other|].
        intros l H. destruct (kind j); simpl in *; [|contradiction|destruct H; discriminate]. destruct H as (d & t & Eo & Hd & ->). rewrite Eo.
        exists (t ++ [EvCall CFlush; EvDone (Some e)]). split; [|simpl; now rewrite <- app_assoc]. eapply done_trace; eauto. constructor.
      * eapply (@step_local s _ j [EvDone None; EvDelay ns]); eauto; simpl; rewrite ?upd_same; auto; [intros k N; now rewrite upd_other|simpl; now rewrite <- app_assoc|].
        intros l H. destruct (kind j); simpl in *; [|contradiction|destruct H; discriminate]. destruct H as (d & t & Eo & Hd & ->). rewrite Eo.
        exists (d ++ [ODelay ns]), (t ++ [EvCall CFlush; EvDone None; EvDelay ns]). rewrite <- !app_assoc. repeat split; auto; [apply done_app; auto; repeat constructor|].
        simpl. now rewrite <- app_assoc.
    + injection E as <-. eapply (@step_local s _ j [EvDone r]); eauto; simpl; rewrite ?upd_same; auto; [intros k N; now rewrite upd_other|].
      intros l H. destruct (kind j); simpl in *; [|contradiction|destruct H; discriminate]. destruct H as (t & Ht & ->). exists t. split; auto. simpl. now rewrite <- app_assoc.
    + injection E as <-. eapply (@step_local s _ j [EvDone r]); eauto; simpl; rewrite ?upd_same; auto; [intros k N; now rewrite upd_other|].
      intros l H. destruct (kind j); simpl in *; [contradiction| |destruct H; discriminate]. destruct H as (n & -> & ->). exact (it_full n r).
  - (* LSlept *)
    destruct (b_pc s j) as [| | | | | |ops| | | | | |] eqn:Ep; try discriminate. injection E as <-.
    eapply (@step_local s _ j []); eauto; simpl; rewrite ?upd_same, ?app_nil_r; auto; [intros k N; now rewrite upd_other|].
    intros l H. rewrite app_nil_r. destruct (kind j); simpl in *; [exact H|contradiction|destruct H; discriminate].
  - (* LHigh *)
    destruct (b_pc s j) as [| | | | | | | | |res f| | |] eqn:Ep; try discriminate. injection E as <-.
    eapply (@step_local s _ j [EvHigh r]); eauto; simpl; rewrite ?upd_same; auto; [intros k N; now rewrite upd_other|].
    intros l H. destruct (kind j); simpl in *; [|contradiction|destruct H; discriminate]. destruct H as (t & Ht & ->).
    simpl. rewrite <- !app_assoc. exact (@st_full' (b_ops s j) t res f r Ht).
  - (* LRet *)
    destruct (b_pc s j) as [| | | | | | | | | |r| |] eqn:Ep; try discriminate.
    match type of E with match ?x with _ => _ end = _ => destruct x as [a|] eqn:Ea; [|discriminate] end. injection E as <-.
    eapply (@step_release s _ j (EvRet r) a); eauto; simpl; auto; [eapply busy_on; eauto; exact Logic.I|]. rewrite Ep. intros l. apply rel_ret. eapply not_direct; eauto. discriminate.
  - (* LDrop *)
    assert (D : b_pc s j = BAcc \/ (b_pc s j <> BAcc /\ suspended (kind j) (b_pc s j) = true /\ exists a, astep (b_arb s) (ARelease j) = Some a /\ s' = bemit (set_bpc (set_arb s a) j BIdle) j EvCancel)).
    { destruct (b_pc s j) eqn:Ep; auto; right; split; try discriminate; simpl in E; try discriminate;
        (match type of E with (if ?c then _ else _) = _ => destruct c eqn:Es; [|discriminate] | _ => idtac end);
        (match type of E with match ?x with _ => _ end = _ => destruct x as [a|] eqn:Ea; [|discriminate] end); injection E as <-; split; eauto. }
    destruct D as [Ep|(N & Sp & a & Ea & ->)].
    + rewrite Ep in E. match type of E with match ?x with _ => _ end = _ => destruct x as [a|] eqn:Ea; [|discriminate] end. injection E as <-.
      assert (Ea' : astep (b_arb s) (ACancel j) = Some a) by exact Ea. edestruct astep_cancel as [H1 H2]; [exact Ea'|].
      assert (Kd : kind j <> KDirect) by (eapply not_direct; eauto; discriminate).
      assert (Ho : forall k, k <> j -> a_pc (cl a k) = a_pc (cl (b_arb s) k)) by (intros k Nk; eapply astep_other; eauto).
      split; simpl.
      * eapply reach_step; eauto.
      * intros k. specialize (P k). simpl. unfold upd. destruct (Nat.eqb_spec k j) as [->|Nk]; [|now rewrite Ho]. destruct (kind j); simpl; auto.
      * intros k b Kk Nk. simpl in *. unfold upd in Nk. destruct (Nat.eqb_spec k j) as [->|]; [congruence|eapply I; eauto].
      * apply (@log_same s _ j); auto; simpl.
        -- eapply idle_off; eauto. exact Logic.I.
        -- unfold on_bus. simpl. congruence.
        -- intros k Nk. now rewrite !upd_other.
    + eapply (@step_release s _ j EvCancel a); eauto; simpl; auto.
      * eapply busy_on; eauto. destruct (b_pc s j); simpl in Sp; try discriminate; exact Logic.I.
      * intros l H. eapply rel_cancel; eauto.
  - (* LDir *)
    destruct (dir_client l) as [j|] eqn:Dc; [|discriminate]. destruct (kind j) eqn:K; try discriminate.
    destruct (astep (b_arb s) l) as [a|] eqn:Ea; [|discriminate]. injection E as <-.
    assert (Cj : client_of l = j) by (destruct l; simpl in *; congruence).
    assert (Ho : forall k, k <> j -> a_pc (cl a k) = a_pc (cl (b_arb s) k)) by (intros k N; eapply astep_other; eauto; congruence).
    assert (R' : areach tt a) by (eapply reach_step; eauto).
    pose proof (P j) as Pj. rewrite K in Pj.
    split; simpl; auto.
    + intros k. specialize (P k). simpl. destruct (Nat.eq_dec k j) as [->|N]; [now rewrite K|]. now rewrite Ho.
    + assert (Hn : ~ on_bus s j).
      { unfold on_bus. destruct l; simpl in Dc; try discriminate; injection Dc as ->; simpl in Ea; destruct (a_pc (cl (b_arb s) j)); try discriminate; congruence. }
      destruct (a_pc (cl a j)) eqn:Pa.
      1-3: apply (@log_same s _ j); auto; unfold on_bus; simpl; congruence.
      apply (@log_take s _ j) with (es := []); auto; [simpl; now rewrite app_nil_r|]. rewrite K. simpl. split; auto. now exists 0.
  - (* LUse *)
    destruct (kind j) eqn:K; try discriminate. destruct (a_pc (cl (b_arb s) j)) eqn:Pa; try discriminate. injection E as <-.
    split; auto. apply (@log_emit s _ j [EvUse]); auto. rewrite K. simpl. intros l [H [n ->]]. split; auto. exists (S n). exact (eq_sym (repeat_cons n EvUse)).
  - (* LRel *)
    destruct (kind j) eqn:K; try discriminate. pose proof (P j) as Pj. rewrite K in Pj.
    match type of E with match ?x with _ => _ end = _ => destruct x as [a|] eqn:Ea; [|discriminate] end. injection E as <-.
    assert (Ea' : astep (b_arb s) (ARelease j) = Some a) by exact Ea.
    edestruct astep_release as [O Hi]; [exact A|exact Ea'|].
    assert (Ho : forall k, k <> j -> a_pc (cl a k) = a_pc (cl (b_arb s) k)) by (intros k N; eapply astep_other; eauto).
    split; simpl; auto.
    + eapply reach_step; eauto.
    + intros k. specialize (P k). simpl. destruct (Nat.eq_dec k j) as [->|N]; [now rewrite K|]. now rewrite Ho.
    + apply (@log_end s _ j EvEnd); auto; [unfold on_bus; simpl; congruence|]. rewrite K. intros l [_ [n ->]]. left. now constructor.
Qed.

Lemma BInv_reach s : breach kind s -> BInv s.
Proof. intros R. refine (@reach_inv _ _ (bstep kind) BInv _ _ _ s R); [exact BInv_new|]. intros. eapply BInv_step; eauto. Qed.

Lemma serial_log s : breach kind s -> serial kind (b_log s).
Proof.
  intros R. destruct (B_log (BInv_reach R)) as (vs & V & [(j & l & _ & L & H)|[_ L]]).
  - exists vs, j, (b_ops s j), l. repeat split; auto. right. eapply rel_prefix; eauto.
  - exists vs, 0, [], []. repeat split; auto. now rewrite app_nil_r.
Qed.

(** ** What was asked for *)
Lemma gots_app l1 l2 : gots (l1 ++ l2) = gots l1 ++ gots l2.
Proof. induction l1 as [|[j e] l1 IH]; simpl; [reflexivity|]. destruct e; simpl; rewrite IH; reflexivity. Qed.
Lemma step_gots s l s' : bstep kind s l = Some s' ->
  (forall k, b_ops s' k = match l with LCall j ops => if Nat.eqb k j then ops else b_ops s k | _ => b_ops s k end) /\
  gots (b_log s') = gots (b_log s) ++ match l with LGot j => [(j, b_ops s j)] | _ => [] end.
Proof.
  intros E. destruct l as [j ops|j w|j|j r lvl|j|j r|j|j r lvl|j|j|l|j|j]; simpl in E;
    repeat match type of E with
    | match ?x with _ => _ end = Some _ => destruct x; try discriminate
    end; injection E as <-; simpl; split; intros; rewrite ?gots_app; simpl; rewrite ?app_nil_r; reflexivity.
Qed.
Lemma wanted_ext c c' l : (forall k, c k = c' k) -> wanted c l = wanted c' l.
Proof.
  revert c c'. induction l as [|x l IH]; intros c c' H; [reflexivity|]. destruct x; simpl; auto.
  - apply IH. intros k. unfold upd. now destruct (Nat.eqb k j).
  - now rewrite H, (IH c c' H).
Qed.
Lemma run_gots sched s s' : run (bstep kind) s sched = Some s' -> gots (b_log s') = gots (b_log s) ++ wanted (b_ops s) sched.
Proof.
  revert s. induction sched as [|l sched IH]; simpl; intros s E; [injection E as <-; now rewrite app_nil_r|].
  destruct (bstep kind s l) as [s1|] eqn:E1; [|discriminate]. rewrite (IH _ E). destruct (step_gots _ _ E1) as [Ho ->]. rewrite <- app_assoc. f_equal.
  destruct l; simpl; try (apply wanted_ext; exact Ho). f_equal. apply wanted_ext. exact Ho.
Qed.

(** ** Chip selects *)
Definition asserted_pc (p : bpc) : bool :=
  match p with BNext _ | BRun _ | BPre _ _ | BSleep _ | BFail _ | BFl _ | BHi _ _ => true | _ => false end.
Definition cs_ok s : Prop := forall j, b_cs s j = asserted_pc (b_pc s j).
Lemma cs_same s s' j p : cs_ok s -> b_pc s' = upd (b_pc s) j p -> asserted_pc p = asserted_pc (b_pc s j) -> b_cs s' = b_cs s -> cs_ok s'.
Proof. intros C E1 E2 E3 k. rewrite E1, E3, C. unfold upd. destruct (Nat.eqb_spec k j) as [->|]; congruence. Qed.
Lemma cs_set s s' j p : cs_ok s -> b_pc s' = upd (b_pc s) j p -> b_cs s' = upd (b_cs s) j (asserted_pc p) -> cs_ok s'.
Proof. intros C E1 E3 k. rewrite E1, E3. unfold upd. destruct (Nat.eqb_spec k j) as [->|]; [congruence|apply C]. Qed.
Lemma cs_ok_step s l s' : cs_ok s -> gentle s l -> bstep kind s l = Some s' -> cs_ok s'.
Proof.
  intros C G E.
  destruct l as [j ops|j w|j|j r lvl|j|j r|j|j r lvl|j|j|l|j|j]; simpl in E, G.
  10: { rewrite G in E. match type of E with match ?x with _ => _ end = _ => destruct x as [a|] eqn:Ea; [|discriminate] end. injection E as <-.
        eapply cs_same; [exact C|reflexivity| |reflexivity]. now rewrite G. }
  all: try subst r; repeat match type of E with
    | match ?x with _ => _ end = Some _ => let F := fresh "F" in destruct x eqn:F; try discriminate
    end; injection E as <-; try exact C.
  all: try (eapply cs_set; [exact C|reflexivity|reflexivity]).
  all: eapply cs_same; [exact C|reflexivity| |reflexivity]; match goal with H : b_pc _ _ = _ |- _ => rewrite H end.
  all: match goal with |- context [match ?x with _ => _ end] => destruct x | _ => idtac end; reflexivity.
Qed.
Lemma gentle_cs s : gentle_reach kind s -> cs_ok s.
Proof.
  intros (ls & G & R). revert G R. assert (C0 : cs_ok bus_new) by (intros k; reflexivity). revert C0. generalize bus_new. induction ls as [|l ls IH]; simpl; intros s0 C0 G R.
  - now injection R as <-.
  - destruct G as [G1 G2]. destruct (bstep kind s0 l) as [s1|] eqn:E; [|destruct G2]. apply (IH s1); auto. eapply cs_ok_step; eauto.
Qed.
Lemma gentle_breach s : gentle_reach kind s -> breach kind s.
Proof. intros (ls & _ & R). exists ls. exact R. Qed.
Lemma asserted_on s j : gentle_reach kind s -> b_cs s j = true -> on_bus s j.
Proof.
  intros R H. pose proof (gentle_cs R) as C. pose proof (BInv_reach (gentle_breach R)) as B.
  rewrite C in H. eapply busy_on; [exact (B_pc B)|reflexivity|]. destruct (b_pc s j); try discriminate; exact Logic.I.
Qed.

Definition calling (p : bpc) : bool := match p with BRun _ | BPre _ _ | BFl _ | BIRun => true | _ => false end.
Definition tail_ok s : Prop := forall log j c, b_log s = log ++ [(j, EvCall c)] -> calling (b_pc s j) = true.
Lemma tail_emit s s0 j e : (forall c, e = EvCall c -> calling (b_pc s0 j) = true) -> s = bemit s0 j e -> tail_ok s.
Proof. intros H -> log k c E. simpl in *. apply app_inj_tail in E. destruct E as [_ E]. injection E as -> ->. eapply H; reflexivity. Qed.
Lemma tail_step s l s' : tail_ok s -> bstep kind s l = Some s' -> tail_ok s'.
Proof.
  intros T E.
  destruct l as [j ops|j w|j|j r lvl|j|j r|j|j r lvl|j|j|l|j|j]; simpl in E;
  repeat match type of E with
    | match ?x with _ => _ end = Some _ => let F := fresh "F" in destruct x eqn:F; try discriminate
    end; injection E as <-;
  try exact T;
  try (eapply tail_emit; [|reflexivity]; intros c Hc; first [discriminate Hc | simpl; rewrite upd_same; reflexivity]).
  all: intros log i c El; simpl in *; pose proof (T _ _ _ El) as Ti; unfold upd; destruct (Nat.eqb_spec i j) as [->|]; auto;
    match goal with H : b_pc _ _ = _ |- _ => rewrite H in Ti end; discriminate Ti.
Qed.
Lemma tail_reach s : breach kind s -> tail_ok s.
Proof.
  intros R. refine (@reach_inv _ _ (bstep kind) tail_ok _ _ _ s R); [|intros; eapply tail_step; eauto]. intros log j c E. destruct log; discriminate E.
Qed.
Lemma calling_selected s log j c b : gentle_reach kind s -> kind j = KSpi b -> b_log s = log ++ [(j, EvCall c)] -> b_cs s j = true.
Proof.
  intros R K E. rewrite (gentle_cs R). pose proof (tail_reach (gentle_breach R) _ _ _ E) as T. pose proof (BInv_reach (gentle_breach R)) as B.
  destruct (b_pc s j) eqn:P; try discriminate T; try reflexivity. exfalso.
  assert (O : on_bus s j) by (eapply busy_on; [exact (B_pc B)|exact P|exact Logic.I]).
  destruct (B_log B) as (vs & _ & [(i & l & H & _ & Rl)|[N _]]); [|exact (N _ O)].
  assert (i = j) by (eapply one_on_bus; [exact (B_arb B)|eassumption|eassumption]). subst i. rewrite K, P in Rl. simpl in Rl. destruct Rl as (? & _ & []).
Qed.
End Bus.
