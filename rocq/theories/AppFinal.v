(** What holds of every application the macro accepts. *)
From Verif Require Import Base AppModel AppSpec AppProofs AppAnalysis AppChecks.
Set Implicit Arguments.

(** ** Generic facts on the containers *)
Lemma tset_fold_in (l : list ty) s T : In T (fold_left tset_insert l s) <-> In T s \/ In T l.
Proof. revert s. induction l as [|t l IH]; intros s; simpl; [tauto|]. rewrite IH, tset_insert_in. split; [intros [[H|H]|H]|intros [H|[H|H]]]; auto. Qed.
Lemma tset_fold_if {V} (c : V -> bool) (f : V -> ty) (l : list V) s T :
  In T (fold_left (fun s r => if c r then tset_insert s (f r) else s) l s) <-> In T s \/ exists r, In r l /\ c r = true /\ f r = T.
Proof.
  revert s. induction l as [|v l IH]; intros s; simpl; [split; [auto|intros [H|(r & [] & _)]; auto]|]. rewrite IH. destruct (c v) eqn:E.
  - rewrite tset_insert_in. split.
    + intros [[H|H]|(r & H)]; [auto|right; exists v; auto|right; exists r; tauto].
    + intros [H|(r & [<-|H] & H1 & H2)]; [auto|auto|right; exists r; auto].
  - split; [intros [H|(r & H)]; [auto|right; exists r; tauto]|intros [H|(r & [<-|H] & H1 & H2)]; [auto|congruence|right; exists r; auto]].
Qed.
Lemma sorted_insert_in l x y : In y (sorted_insert l x) <-> y = x \/ In y l.
Proof.
  induction l as [|z l IH]; simpl; [split; [intros [H|[]]|intros [H|[]]]; auto|]. destruct (x <? z); [simpl; split; [intros [H|H]|intros [H|H]]; auto|].
  destruct (Nat.eqb_spec x z) as [->|]; [simpl; split; [auto|intros [H|H]; auto]|]. simpl. rewrite IH. tauto.
Qed.
Inductive incr : list nat -> Prop := inc_nil : incr [] | inc_cons x l : (forall y, In y l -> x < y) -> incr l -> incr (x :: l).
Lemma sorted_insert_incr l x : incr l -> incr (sorted_insert l x).
Proof.
  intros H. induction H as [|z l Hz H IH]; simpl; [constructor; [intros y []|constructor]|].
  destruct (Nat.ltb_spec x z); [constructor; [intros y [<-|Hy]; [auto|specialize (Hz y Hy); lia]|constructor; auto]|].
  destruct (Nat.eqb_spec x z); [now constructor|]. constructor; [|auto]. intros y Hy. apply sorted_insert_in in Hy as [->|Hy]; [lia|auto].
Qed.
Lemma incr_NoDup l : incr l -> NoDup l.
Proof. induction 1 as [|x l Hx H IH]; constructor; auto. intros Hi. specialize (Hx x Hi). lia. Qed.
Lemma incr_filter f l : incr l -> incr (filter f l).
Proof. induction 1 as [|x l Hx H IH]; simpl; [constructor|]. destruct (f x); [|auto]. constructor; [|auto]. intros y Hy. apply filter_In in Hy. apply Hx. tauto. Qed.
Lemma sw_prios_in a p : In p (sw_prios a) <-> exists n t, In (n, t) (ap_sw a) /\ sw_prio t = p.
Proof.
  unfold sw_prios. assert (G : forall l s, In p (fold_left (fun l (t : ident * swtask) => sorted_insert l (sw_prio (snd t))) l s) <-> In p s \/ exists n t, In (n, t) l /\ sw_prio t = p).
  { induction l as [|[n t] l IH]; intros s; simpl; [split; [auto|intros [H|(? & ? & [] & _)]; auto]|]. rewrite IH, sorted_insert_in. simpl. split.
    - intros [[H|H]|(n' & t' & H & H')]; [right; exists n, t; auto|auto|right; exists n', t'; auto].
    - intros [H|(n' & t' & [[= <- <-]|H] & H')]; [auto|auto|right; exists n', t'; auto]. }
  rewrite G. simpl. tauto.
Qed.
Lemma sw_prios_incr a : incr (sw_prios a).
Proof. unfold sw_prios. assert (G : forall l s, incr s -> incr (fold_left (fun l (t : ident * swtask) => sorted_insert l (sw_prio (snd t))) l s)) by (induction l as [|t l IH]; intros s H; simpl; auto using sorted_insert_incr). apply G. constructor. Qed.
Lemma nz_prios_in a p : In p (nz_prios a) <-> 0 < p /\ exists n t, In (n, t) (ap_sw a) /\ sw_prio t = p.
Proof. unfold nz_prios. rewrite filter_In, sw_prios_in, Nat.ltb_lt. tauto. Qed.
Lemma nz_prios_NoDup a : NoDup (nz_prios a).
Proof. apply incr_NoDup, incr_filter, sw_prios_incr. Qed.
Lemma pop_each_some ps rd l : pop_each ps rd = Some l -> map fst l = ps /\ exists r, rd = map snd l ++ r.
Proof.
  revert rd l. induction ps as [|p ps IH]; intros rd l H; simpl in H; [injection H as <-; split; [auto|now exists rd]|].
  destruct rd as [|d rd]; [discriminate|]. destruct (pop_each ps rd) as [l'|] eqn:E; [|discriminate]. injection H as <-. destruct (IH _ _ E) as [<- [r ->]]. simpl. split; [auto|now exists r].
Qed.
Lemma pop_each_total ps rd : length ps <= length rd -> exists l, pop_each ps rd = Some l.
Proof. revert rd. induction ps as [|p ps IH]; intros rd H; simpl; [eauto|]. destruct rd as [|d rd]; simpl in *; [lia|]. destruct (IH rd) as [l ->]; [lia|eauto]. Qed.
Lemma NoDup_rev_iff {V} (l : list V) : NoDup (rev l) <-> NoDup l.
Proof. split; [intros H; rewrite <- (rev_involutive l); now apply NoDup_rev|apply NoDup_rev]. Qed.
Lemma interrupts_some a l : NoDup (ap_disp a) -> interrupts a = Some l ->
  map fst l = nz_prios a /\ NoDup (map snd l) /\ (forall d, In d (map snd l) -> In d (ap_disp a)).
Proof.
  unfold interrupts. intros N. destruct (pop_each _ _) as [l'|] eqn:E; [|discriminate]. intros [= <-]. apply pop_each_some in E as [E1 [r E2]]. rewrite !map_rev, E1, rev_involutive. split; [auto|].
  assert (N' : NoDup (map snd l' ++ r)) by (rewrite <- E2; now apply NoDup_rev_iff). apply NoDup_app_inv in N' as (N1 & _). split; [now apply NoDup_rev_iff|].
  intros d Hd. apply in_rev in Hd. apply in_rev. rewrite E2. apply in_app_iff. auto.
Qed.
Lemma interrupts_total a : length (nz_prios a) <= length (ap_disp a) -> exists l, interrupts a = Some l.
Proof. intros H. unfold interrupts. destruct (@pop_each_total (rev (nz_prios a)) (rev (ap_disp a))) as [l ->]; [now rewrite !rev_length|eauto]. Qed.

(** channels *)
Definition chan_of (m : list (nat * list ident)) (p : nat) : list ident := match find (fun c => fst c =? p) m with Some c => snd c | None => [] end.
Lemma chan_insert_in m p n q y : In y (chan_of (chan_insert m p n) q) <-> In y (chan_of m q) \/ (q = p /\ y = n).
Proof.
  unfold chan_insert. destruct (existsb (fun c => fst c =? p) m) eqn:E.
  - assert (F : forall m, chan_of (map (fun c => if fst c =? p then (fst c, set_insert (snd c) n) else c) m) q =
              match find (fun c => fst c =? q) m with Some c => if q =? p then set_insert (snd c) n else snd c | None => [] end).
    { unfold chan_of. induction m0 as [|[p0 l0] m0 IH]; simpl; [reflexivity|]. destruct (Nat.eqb_spec p0 p) as [->|]; simpl.
      - destruct (Nat.eqb_spec p q) as [->|]; [now rewrite Nat.eqb_refl|apply IH].
      - destruct (Nat.eqb_spec p0 q) as [->|]; [|apply IH]. now rewrite (proj2 (Nat.eqb_neq q p)). }
    rewrite F. unfold chan_of. destruct (find (fun c => fst c =? q) m) as [[p0 l0]|] eqn:Ef; simpl.
    + destruct (Nat.eqb_spec q p); [rewrite set_insert_in; tauto|tauto].
    + split; [tauto|intros [[]|[-> _]]]. exfalso. apply existsb_exists in E as (c & Hc & Ec). pose proof (find_none _ _ Ef _ Hc). simpl in *. congruence.
  - unfold chan_of. assert (F : find (fun c => fst c =? q) (m ++ [(p, [n])]) = match find (fun c => fst c =? q) m with Some c => Some c | None => if p =? q then Some (p, [n]) else None end).
    { clear E. induction m as [|c m IH]; simpl; [reflexivity|]. destruct (fst c =? q); [reflexivity|apply IH]. }
    rewrite F. destruct (find (fun c => fst c =? q) m) as [c|] eqn:Ef; simpl.
    + split; [auto|intros [H|[-> ->]]; [auto|exfalso]]. apply find_some in Ef as [Hi Hc]. assert (existsb (fun c => fst c =? p) m = true) by (apply existsb_exists; eauto). congruence.
    + destruct (Nat.eqb_spec p q) as [->|]; simpl; [split; [intros [<-|[]]; auto|intros [[]|[_ ->]]; auto]|split; [tauto|intros [[]|[-> _]]; congruence]].
Qed.
Lemma set_insert_NoDup l x : NoDup l -> NoDup (set_insert l x).
Proof. intros N. unfold set_insert. destruct (mem x l) eqn:E; [auto|]. apply NoDup_app_intro; [auto|constructor; [simpl; tauto|constructor]|]. intros y Hy [<-|[]]. apply mem_in in Hy. congruence. Qed.
Lemma chan_insert_NoDup m p n : (forall q, NoDup (chan_of m q)) -> forall q, NoDup (chan_of (chan_insert m p n) q).
Proof.
  intros N q. unfold chan_insert. destruct (existsb (fun c => fst c =? p) m) eqn:E.
  - specialize (N q). unfold chan_of in *. clear E. induction m as [|[p0 l0] m IH]; simpl in *; [constructor|].
    destruct (Nat.eqb_spec p0 p) as [->|]; simpl; (destruct (Nat.eqb_spec p q) as [->|] || destruct (Nat.eqb_spec p0 q) as [->|]); auto; simpl in *.
    + now apply set_insert_NoDup.
    + destruct (p0 =? q); auto.
    + destruct (p0 =? q); auto.
  - specialize (N q). unfold chan_of in *. assert (F : find (fun c => fst c =? q) (m ++ [(p, [n])]) = match find (fun c => fst c =? q) m with Some c => Some c | None => if p =? q then Some (p, [n]) else None end).
    { clear E N. induction m as [|c m IH]; simpl; [reflexivity|]. destruct (fst c =? q); [reflexivity|apply IH]. }
    rewrite F. destruct (find (fun c => fst c =? q) m) as [c|]; [auto|]. destruct (p =? q); simpl; repeat constructor. simpl. tauto.
Qed.
Lemma chans_in (sw : list (ident * swtask)) m q y : In y (chan_of (fold_left (fun m t => chan_insert m (sw_prio (snd t)) (fst t)) sw m) q) <->
  In y (chan_of m q) \/ exists t, In (y, t) sw /\ sw_prio t = q.
Proof.
  revert m. induction sw as [|[n t] sw IH]; intros m; simpl; [split; [auto|intros [H|(? & [] & _)]; auto]|]. rewrite IH, chan_insert_in. simpl. split.
  - intros [[H|[-> ->]]|(t' & H & H')]; [auto|right; exists t; auto|right; exists t'; auto].
  - intros [H|(t' & [[= <- <-]|H] & <-)]; [auto|auto|right; exists t'; auto].
Qed.
Lemma chans_NoDup (sw : list (ident * swtask)) m : (forall q, NoDup (chan_of m q)) -> forall q, NoDup (chan_of (fold_left (fun m t => chan_insert m (sw_prio (snd t)) (fst t)) sw m) q).
Proof. revert m. induction sw as [|[n t] sw IH]; intros m N; simpl; [auto|]. apply IH. now apply chan_insert_NoDup. Qed.

(** ** Accepted applications *)
Definition with_disp (a : app) d := mkApp d (ap_init a) (ap_idle a) (ap_shared a) (ap_local a) (ap_hw a) (ap_sw a).
Record accepted (b : bkind) (disp : list ident) (items : list item) (a : app) (x : expansion) : Prop := mkAcc {
  ac_parse : parse_app disp items = Some a;
  ac_parsed : parsed disp items a;
  ac_check : syntax_check a = true;
  ac_lf : lf_error a = false; ac_lr : lr_error a = false; ac_zero : zero_error a = false;
  ac_ana : analyze a = Some (x_ana x);
  ac_pre : preprocess b a = Some (x_app x);
  ac_app : x_app x = with_disp a (ap_disp (x_app x));
  ac_arch : arch_check b (x_app x) = true;
  ac_ints : interrupts (x_app x) = Some (x_ints x);
  ac_prio : forallb (fun c => prio_supported b (snd c)) (configured b (x_app x) (x_ints x)) = true;
  ac_disp : NoDup (ap_disp (x_app x))
}.
Lemma expand_accepted b disp items x : expand b disp items = Some x -> exists a, accepted b disp items a x.
Proof.
  unfold expand. destruct (parse_app disp items) as [a|] eqn:E1; [|discriminate]. destruct (syntax_check a) eqn:E2; [|discriminate]. cbn [negb].
  destruct (analyze a) as [y|] eqn:E3; [|discriminate]. destruct (preprocess b a) as [a'|] eqn:E4; [|discriminate]. destruct (arch_check b a') eqn:E5; [|discriminate]. cbn [negb].
  destruct (interrupts a') as [ints|] eqn:E6; [|discriminate]. destruct (forallb _ _) eqn:E7; [|discriminate]. intros [= <-]. exists a.
  assert (E3' := E3). unfold analyze in E3'. destruct (lf_error a) eqn:F1; [discriminate|]. destruct (lr_error a) eqn:F2; [discriminate|]. destruct (zero_error a) eqn:F3; [discriminate|]. clear E3'.
  pose proof (parse_parsed _ _ E1) as P.
  assert (Hd : a' = with_disp a (ap_disp a') /\ NoDup (ap_disp a')).
  { unfold preprocess in E4. destruct b; try (injection E4 as <-; split; [now destruct a|exact (wf_disp (pd_wf P))]). destruct (ap_disp a); [|discriminate]. injection E4 as <-. split; [reflexivity|]. cbn [ap_disp].
    assert (G : forall l s, NoDup s -> NoDup (fold_left (fun l i => set_insert l (slic_disp i)) l s)) by (induction l as [|i l IH]; intros s N; simpl; auto using set_insert_NoDup). apply G. constructor. }
  destruct Hd. constructor; auto.
Qed.

Section Acc.
Context (b : bkind) (disp : list ident) (items : list item) (a : app) (x : expansion) (H : accepted b disp items a x).
Let P := ac_parsed H.
Let W := pd_wf P.
Lemma acc_shared : ap_shared (x_app x) = ap_shared a. Proof. now rewrite (ac_app H). Qed.
Lemma acc_local : ap_local (x_app x) = ap_local a. Proof. now rewrite (ac_app H). Qed.
Lemma acc_hw : ap_hw (x_app x) = ap_hw a. Proof. now rewrite (ac_app H). Qed.
Lemma acc_sw : ap_sw (x_app x) = ap_sw a. Proof. now rewrite (ac_app H). Qed.
Lemma acc_idle : ap_idle (x_app x) = ap_idle a. Proof. now rewrite (ac_app H). Qed.
Lemma acc_init : ap_init (x_app x) = ap_init a. Proof. now rewrite (ac_app H). Qed.
Lemma acc_is_task n k p ar : is_task (x_app x) n k p ar <-> is_task a n k p ar.
Proof. split; intros T; destruct T as [n ar T|n t T|n t T]; try rewrite acc_idle in T; try rewrite acc_hw in T; try rewrite acc_sw in T; (apply T_idle || apply T_hw || apply T_sw); try rewrite acc_idle; try rewrite acc_hw; try rewrite acc_sw; auto. Qed.

Lemma acc_ana : x_ana x = mkAna (fold_left (fun m t => chan_insert m (sw_prio (snd t)) (fst t)) (ap_sw a) []) (an_used (own_loop a)) (fst (loc_loop a (an_own (own_loop a)))) (snd (loc_loop a (an_own (own_loop a)))) (y_send (x_ana x)) (an_sync (own_loop a)).
Proof.
  pose proof (ac_ana H) as A. unfold analyze in A. rewrite (ac_lf H), (ac_lr H), (ac_zero H) in A. cbn [orb] in A. destruct (loc_loop a (an_own (own_loop a))) as [u o]. injection A as <-. reflexivity.
Qed.
Lemma acc_own : y_own (x_ana x) = snd (loc_loop a (an_own (own_loop a))). Proof. now rewrite acc_ana. Qed.

Lemma uses_shared_iff n p r ac : uses_shared items n p r ac <-> exists k ar, is_task a n k p ar /\ In (r, ac) (a_shared ar).
Proof.
  split.
  - intros (k & sh & lo & T & I). apply (pd_task P) in T. exists k, (mkArgs sh lo). auto.
  - intros (k & [sh lo] & T & I). apply (pd_task P) in T. exists k, sh, lo. auto.
Qed.
Lemma uses_local_iff n p r : uses_local items n p r <-> exists k ar, is_task a n k p ar /\ In (r, External) (a_local ar).
Proof.
  split.
  - intros (k & sh & lo & T & I). apply (pd_task P) in T. exists k, (mkArgs sh lo). auto.
  - intros (k & [sh lo] & T & I). apply (pd_task P) in T. exists k, sh, lo. auto.
Qed.
Lemma prios_iff r p : prios (accesses a) r p <-> exists n ac, uses_shared items n p r ac.
Proof.
  unfold prios. split.
  - intros (ac & I). apply in_accesses in I as (n & k & ar & T & I). exists n, ac. apply uses_shared_iff. eauto.
  - intros (n & ac & I). apply uses_shared_iff in I as (k & ar & T & I). exists ac. apply in_accesses. eauto.
Qed.
Lemma used_shared_declared n p r ac : uses_shared items n p r ac -> exists s, shared_field items r s.
Proof.
  intros U. apply uses_shared_iff in U as (k & ar & T & I). pose proof (ac_check H) as C. unfold syntax_check in C. rewrite !andb_true_iff in C. destruct C as (((C & _) & _) & _).
  rewrite forallb_forall in C. specialize (C (p, r, ac)). simpl in C. unfold ihas in C. destruct (iget (ap_shared a) r) as [s|] eqn:E.
  - exists s. apply (pd_shared P). now apply iget_in.
  - exfalso. enough (false = true) by discriminate. apply C. apply in_accesses. eauto.
Qed.
Lemma used_local_declared n p r : uses_local items n p r -> exists s, local_field items r s.
Proof.
  intros U. apply uses_local_iff in U as (k & ar & T & I). pose proof (ac_check H) as C. unfold syntax_check in C. rewrite !andb_true_iff in C. destruct C as (((_ & C) & _) & _).
  rewrite forallb_forall in C. specialize (C r). simpl in C. unfold ihas in C. destruct (iget (ap_local a) r) as [s|] eqn:E.
  - exists s. apply (pd_local P). now apply iget_in.
  - exfalso. enough (false = true) by discriminate. apply C. apply in_local_accesses; eauto. now exists n, k, p, ar.
Qed.
Lemma no_mixed_access n p r n' p' : uses_shared items n p r Exclusive -> ~ uses_shared items n' p' r SharedRef.
Proof.
  intros U U'. apply uses_shared_iff in U as (k & ar & T & I). apply uses_shared_iff in U' as (k' & ar' & T' & I').
  pose proof (ac_check H) as C. unfold syntax_check in C. rewrite !andb_true_iff in C. destruct C as ((_ & C) & _).
  rewrite forallb_forall in C. specialize (C (p', r, SharedRef)). cbn [snd fst is_excl negb andb] in C.
  enough (X : mem r (map (fun x => snd (fst x)) (filter (fun x => is_excl (snd x)) (accesses a))) = true). { rewrite X in C. simpl in C. enough (false = true) by discriminate. apply C. apply in_accesses. eauto. }
  apply mem_in. apply in_map_iff. exists (p, r, Exclusive). split; [reflexivity|]. apply filter_In. split; [|reflexivity]. apply in_accesses. eauto.
Qed.

(** C09 *)
Lemma local_one n p n' p' r : uses_local items n p r -> uses_local items n' p' r -> n = n' /\ p = p'.
Proof.
  intros U U'. destruct (used_local_declared U) as [t Ht]. apply (pd_local P) in Ht. apply uses_local_iff in U as (k & ar & T & I). apply uses_local_iff in U' as (k' & ar' & T' & I').
  destruct (@local_unique a W r (ac_lr H)) as [L _]; [apply in_map_iff; now exists (r, t)|].
  destruct (L _ _ _ _ _ _ _ _ _ _ T T' I I') as [<- _]. split; [auto|]. now destruct (task_names_unique W T T') as (_ & -> & _).
Qed.
Lemma local_not_declared r t n : local_field items r t -> ~ declares items n r.
Proof.
  intros F D. apply (pd_local P) in F. destruct (@local_unique a W r (ac_lr H)) as [L1 L2]; [apply in_map_iff; now exists (r, t)|]. destruct D as [(k & p & sh & lo & T & I)|(lo & ss & ls & I & I')].
  - apply (pd_task P) in T. destruct (L1 _ _ _ _ _ _ _ _ _ _ T T I I) as [_ E]. discriminate.
  - apply (pd_init_only P) in I as [_ E]. rewrite E in I'. exact (L2 _ I').
Qed.

(** C07 *)
Lemma ceiling_no_clash r : no_clash items r -> (exists n p ac, uses_shared items n p r ac) -> highest items r (ceiling x r).
Proof.
  intros N (n & p & ac & U). unfold ceiling. rewrite acc_own, loc_loop_none by (try exact W; intros n' k' p' ar' T I; apply (N n' p'); apply uses_local_iff; eauto).
  destruct (own_loop_inv a) as (_ & I2 & _). specialize (I2 r). destruct (iget (an_own (own_loop a)) r) as [o|].
  - destruct I2 as [I3 I4]. split; [now apply prios_iff|]. intros n' p' ac' U'. apply I4. apply prios_iff. eauto.
  - exfalso. apply (I2 p). apply prios_iff. eauto.
Qed.
Lemma ceiling_unused r : no_clash items r -> (forall n p ac, ~ uses_shared items n p r ac) -> ceiling x r = 0.
Proof.
  intros N U. unfold ceiling. rewrite acc_own, loc_loop_none by (try exact W; intros n' k' p' ar' T I; apply (N n' p'); apply uses_local_iff; eauto).
  destruct (own_loop_inv a) as (_ & I2 & _). specialize (I2 r). destruct (iget (an_own (own_loop a)) r) as [o|]; [|auto]. destruct I2 as [I3 _]. apply prios_iff in I3 as (n & ac & I3). now apply U in I3.
Qed.
Lemma own_clash r n p : uses_local items n p r -> iget (y_own (x_ana x)) r = Some (Owned p).
Proof.
  intros U. assert (V := U). apply uses_local_iff in U as (k & ar & T & I). rewrite acc_own. eapply loc_loop_some; eauto. intros n' k' p' ar' T' I'.
  assert (uses_local items n' p' r) as U' by (apply uses_local_iff; eauto). now destruct (local_one U' V).
Qed.
Lemma ceiling_clash r n p : uses_local items n p r -> ceiling x r = p.
Proof. intros U. unfold ceiling. now rewrite (own_clash U). Qed.

(** C08 *)
Lemma lock_free_ok r s : shared_field items r s -> sr_lock_free s = true ->
  (forall n k p sh lo ac, src_task items n k p sh lo -> In (r, ac) sh -> k <> KSoft) /\
  (forall n p ac n' p' ac', uses_shared items n p r ac -> uses_shared items n' p' r ac' -> p = p').
Proof.
  intros F L. apply (pd_shared P) in F. destruct (proj1 (lf_error_iff W) (ac_lf H) r s F L) as [L1 L2]. split.
  - intros n k p sh lo ac T I ->. apply (pd_task P) in T. assert (X : ihas (ap_sw a) n = false). { apply (L1 n p). apply in_all_uses. exists KSoft, (mkArgs sh lo), ac. auto. }
    inversion T as [|? ? G|? t G]; subst. assert (ihas (ap_sw a) n = true) by (apply ihas_in; apply in_map_iff; now exists (n, t)). congruence.
  - intros n p ac n' p' ac' U U'. apply uses_shared_iff in U as (k & ar & T & I). apply uses_shared_iff in U' as (k' & ar' & T' & I'). apply (L2 n p n' p'); apply in_all_uses; eauto.
Qed.

(** C10 *)
Lemma send_iff T : In T (y_send (x_ana x)) <->
  (exists r s, In (r, s) (ap_shared a) /\ needs_send (y_own (x_ana x)) r = true /\ sr_ty s = T) \/
  (exists r, In (r, T) (ap_local a) /\ needs_send (y_own (x_ana x)) r = true) \/
  (exists n t, In (n, t) (ap_sw a) /\ sw_local_task t = false /\ In T (sw_inputs t)).
Proof.
  pose proof (ac_ana H) as A. unfold analyze in A. rewrite (ac_lf H), (ac_lr H), (ac_zero H) in A. cbn [orb] in A. destruct (loc_loop a (an_own (own_loop a))) as [u o]. injection A as <-. cbn [y_send y_own].
  set (S2 := fold_left _ (ap_local a) _). assert (G : forall (l : list (ident * swtask)) s, In T (fold_left (fun l t => if sw_local_task (snd t) then l else fold_left tset_insert (sw_inputs (snd t)) l) l s) <->
    In T s \/ exists n t, In (n, t) l /\ sw_local_task t = false /\ In T (sw_inputs t)).
  { induction l as [|[n t] l IH]; intros s; simpl; [split; [auto|intros [I|(? & ? & [] & _)]; auto]|]. rewrite IH. destruct (sw_local_task t) eqn:E.
    - split; [intros [I|(n' & t' & I)]; [auto|right; exists n', t'; tauto]|intros [I|(n' & t' & [[= <- <-]|I] & I')]; [auto|destruct I'; congruence|right; exists n', t'; auto]].
    - rewrite tset_fold_in. split; [intros [[I|I]|(n' & t' & I)]; [auto|right; exists n, t; auto|right; exists n', t'; tauto]|intros [I|(n' & t' & [[= <- <-]|I] & I1 & I2)]; [auto|auto|right; exists n', t'; auto]]. }
  rewrite G. unfold S2. rewrite !tset_fold_if. simpl. split.
  - intros [[[[]|((r, s) & I1 & I2 & I3)]|((r, s) & I1 & I2 & I3)]|I]; [left; exists r, s; auto|right; left; simpl in *; subst s; exists r; auto|auto].
  - intros [(r & s & I)|[(r & I)|I]]; [left; left; right; exists (r, s); auto|left; right; exists (r, T); tauto|auto].
Qed.
Lemma own_shared r n p ac : no_clash items r -> uses_shared items n p r ac -> exists o, iget (y_own (x_ana x)) r = Some o /\ p <= own_prio o.
Proof.
  intros N U. rewrite acc_own, loc_loop_none by (try exact W; intros n' k' p' ar' T I; apply (N n' p'); apply uses_local_iff; eauto).
  destruct (own_loop_inv a) as (_ & I2 & _). specialize (I2 r). assert (U' : prios (accesses a) r p) by (apply prios_iff; eauto). destruct (iget (an_own (own_loop a)) r) as [o|]; [exists o; split; [auto|now apply I2]|now apply I2 in U'].
Qed.
Lemma crosses_send T : (forall r s, shared_field items r s -> sr_ty s = T -> no_clash items r) -> crosses items (can_spawn (x_app x)) T -> In T (y_send (x_ana x)).
Proof.
  intros N C. apply send_iff. destruct C as [r s n p ac F U Hp|r s n p ac n' p' ac' F U U' Hp|r t n p F U Hp|t r n I Hb It Hs|t r n m rm I Hb It Hs Im Hm Hq].
  - left. exists r, s. split; [now apply (pd_shared P)|]. split; [|auto]. destruct (own_shared (N r s F eq_refl) U) as (o & E & L). unfold needs_send. rewrite E. destruct (Nat.eqb_spec (own_prio o) 0); [lia|reflexivity].
  - left. exists r, s. split; [now apply (pd_shared P)|]. split; [|auto]. destruct (own_shared (N r s F eq_refl) U) as (o & E & L). destruct (own_shared (N r s F eq_refl) U') as (o' & E' & L').
    rewrite E in E'. injection E' as <-. unfold needs_send. rewrite E. destruct (Nat.eqb_spec (own_prio o) 0); [lia|reflexivity].
  - right. left. exists r. split; [now apply (pd_local P)|]. unfold needs_send. rewrite (own_clash U). simpl. destruct (Nat.eqb_spec p 0); [lia|reflexivity].
  - right. right. exists n, (sw_of r). assert (G : In (n, sw_of r) (ap_sw a)) by (apply (pd_sw P); exists r; auto). split; [auto|]. split; [|exact It].
    unfold can_spawn in Hs. rewrite acc_sw, (in_iget _ _ _ (proj1 (proj2 (NoDup_app_inv _ _ (proj1 (proj2 (NoDup_app_inv _ _ (proj2 (proj1 (NoDup_cons_iff _ _) (wf_names W)))))))))  G) in Hs. destruct (sw_local_task (sw_of r)); [discriminate|reflexivity].
  - right. right. exists n, (sw_of r). assert (G : In (n, sw_of r) (ap_sw a)) by (apply (pd_sw P); exists r; auto). assert (G' : In (m, sw_of rm) (ap_sw a)) by (apply (pd_sw P); exists rm; auto). split; [auto|]. split; [|exact It].
    assert (ND := proj1 (proj2 (NoDup_app_inv _ _ (proj1 (proj2 (NoDup_app_inv _ _ (proj2 (proj1 (NoDup_cons_iff _ _) (wf_names W))))))))).
    unfold can_spawn in Hs. rewrite acc_sw, (in_iget _ _ _ ND G), (in_iget _ _ _ ND G') in Hs. destruct (sw_local_task (sw_of r)); [|reflexivity]. apply Nat.eqb_eq in Hs. unfold sw_of in Hs. simpl in Hs. congruence.
Qed.
Lemma sync_ok T : ref_shared items T -> In T (y_sync (x_ana x)).
Proof.
  intros (r & s & n & p & n' & p' & F & <- & U & U' & Hp). rewrite acc_ana. cbn [y_sync]. destruct (own_loop_inv a) as (_ & _ & I3).
  assert (Fg : iget (ap_shared a) r = Some s) by (apply in_iget; [apply (wf_shared W)|now apply (pd_shared P)]).
  destruct (I3 r s Fg) as [I|I]; [|auto|exfalso; apply Hp; apply I; apply prios_iff; eauto].
  intros q ac Ia. destruct ac; [exfalso|reflexivity]. apply in_accesses in Ia as (n0 & k0 & ar0 & T0 & I0). apply (@no_mixed_access n0 q r n p); [apply uses_shared_iff; eauto|auto].
Qed.

(** C11 *)
Lemma chan_in n p : In n (chan x p) <-> exists sh lo, src_task items n KSoft p sh lo.
Proof.
  assert (E : chan x p = chan_of (y_channels (x_ana x)) p) by reflexivity. rewrite E, acc_ana. cbn [y_channels]. rewrite chans_in. unfold chan_of at 1. simpl. split.
  - intros [[]|(t & I & <-)]. exists (a_shared (sw_args t)), (a_local (sw_args t)). apply (pd_task P). replace (mkArgs _ _) with (sw_args t) by now destruct (sw_args t). now apply T_sw.
  - intros (sh & lo & T). apply (pd_task P) in T. inversion T as [|? ? G|? t G]; subst. right. exists t. auto.
Qed.
Lemma chan_NoDup p : NoDup (chan x p).
Proof. assert (E : chan x p = chan_of (y_channels (x_ana x)) p) by reflexivity. rewrite E, acc_ana. cbn [y_channels]. apply chans_NoDup. intros q. unfold chan_of. simpl. constructor. Qed.
Lemma ints_ok : map fst (x_ints x) = nz_prios a /\ NoDup (map snd (x_ints x)) /\ (forall d, In d (map snd (x_ints x)) -> In d (ap_disp (x_app x))).
Proof. destruct (@interrupts_some _ _ (ac_disp H) (ac_ints H)) as (E & N & D). split; [|auto]. rewrite E. unfold nz_prios, sw_prios. now rewrite acc_sw. Qed.
Lemma ints_prio p : (exists d, In (p, d) (x_ints x)) <-> 0 < p /\ exists n sh lo, src_task items n KSoft p sh lo.
Proof.
  destruct ints_ok as (E & _). assert (M : (exists d, In (p, d) (x_ints x)) <-> In p (nz_prios a)). { rewrite <- E, in_map_iff. split; [intros (d & I); now exists (p, d)|intros ([q d] & <- & I); simpl; eauto]. }
  rewrite M, nz_prios_in. split; intros (Hp & G); (split; [exact Hp|]).
  - destruct G as (n & t & I & <-). exists n, (a_shared (sw_args t)), (a_local (sw_args t)). apply (pd_task P). replace (mkArgs _ _) with (sw_args t) by now destruct (sw_args t). now apply T_sw.
  - destruct G as (n & sh & lo & T). apply (pd_task P) in T. inversion T as [|? ? G|? t G]; subst. eauto.
Qed.
Lemma ints_fun p d d' : In (p, d) (x_ints x) -> In (p, d') (x_ints x) -> d = d'.
Proof.
  destruct ints_ok as (E & _). assert (N : NoDup (map fst (x_ints x))) by (rewrite E; apply nz_prios_NoDup). clear E. revert N. induction (x_ints x) as [|[q e] l IH]; simpl; [tauto|]. intros N. inversion N as [|? ? N1 N2]; subst.
  intros [I|I] [I'|I'].
  - congruence.
  - exfalso. injection I as -> ->. apply N1. apply in_map_iff. now exists (p, d').
  - exfalso. injection I' as -> ->. apply N1. apply in_map_iff. now exists (p, d).
  - now apply IH.
Qed.
Lemma ints_inj p p' d : In (p, d) (x_ints x) -> In (p', d) (x_ints x) -> p = p'.
Proof.
  destruct ints_ok as (_ & N & _). revert N. induction (x_ints x) as [|[q e] l IH]; simpl; [tauto|]. intros N. inversion N as [|? ? N1 N2]; subst.
  intros [I|I] [I'|I'].
  - congruence.
  - exfalso. injection I as -> ->. apply N1. apply in_map_iff. now exists (p', d).
  - exfalso. injection I' as -> ->. apply N1. apply in_map_iff. now exists (p, d).
  - now apply IH.
Qed.
End Acc.
