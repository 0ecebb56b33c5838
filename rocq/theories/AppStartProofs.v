(** Proofs about start-up. *)
From Verif Require Import Base LTS AppModel AppSpec AppProofs AppAnalysis AppChecks AppFinal AppRun AppStart.
Set Implicit Arguments.

Lemma append_inj s a b : append s a = append s b -> a = b.
Proof. induction s as [|c s IH]; simpl; [auto|]. intros [= E]. auto. Qed.
Definition static_of (v : value) : ident := match v with VShared n => shared_static n | VLocal n => local_static n end.
Lemma static_of_inj v w : static_of v = static_of w -> v = w.
Proof. destruct v as [n|n], w as [m|m]; unfold static_of, shared_static, local_static, internal; intros E; [f_equal; apply append_inj in E; now apply append_inj in E|discriminate E|discriminate E|f_equal; apply append_inj in E; now apply append_inj in E]. Qed.

(** The interrupt matrix after a piece of [main]. *)
Definition hw_after (d : list stmt) : intc :=
  fold_left (fun h st => match st with SConfigure i p (Some id) => ic_enable i p id h | _ => h end) d ic_reset.
Lemma hw_after_snoc d st : hw_after (d ++ [st]) = match st with SConfigure i p (Some id) => ic_enable i p id (hw_after d) | _ => hw_after d end.
Proof. unfold hw_after. now rewrite fold_left_app. Qed.
Section S.
Context (b : bkind) (x : expansion).
Record sinv (s : sst) (si_done : list stmt) : Prop := mkSi {
  si_code : main_code b x = si_done ++ t_pc s;
  si_reset : si_done = [] -> t_live s = [];
  si_off : si_done <> [] -> In SEnable (t_pc s) -> t_on s = false;
  si_inited : t_inited s = true <-> In SInit si_done;
  si_memk : forall k v, In (k, v) (t_mem s) -> k = static_of v;
  si_shared : forall n, In (SWriteShared n) si_done <-> In (shared_static n, VShared n) (t_mem s);
  si_local : forall n, In (SWriteLocal n) si_done <-> In (local_static n, VLocal n) (t_mem s);
  si_prio : forall i p, (exists k, In (SConfigure i p k) si_done) <-> In (i, p) (t_prio s);
  si_hw : t_hw s = hw_after si_done;
  si_ids : forall i p id, In (SConfigure i p (Some id)) si_done -> id < 32;
  si_live : forall i p, In (i, p) (t_prio s) -> In i (t_live s)
}.
Lemma in_snoc {V} (l : list V) a c : In c (l ++ [a]) <-> In c l \/ c = a.
Proof. rewrite in_app_iff. simpl. split; [intros [H|[H|[]]]|intros [H|H]]; auto. Qed.
Lemma sinv_step s l s' : (exists c, main_code b x = c ++ [SEnable; SThread] /\ ~ In SEnable c /\ ~ In SThread c) -> forall d, sinv s d -> sstep x s l = Some s' -> exists d', sinv s' d'.
Proof.
  intros (c & Hc & Hne & Hnt) d [Hcode Hr Hoff Hin Hk Hs Hl Hp Hh Hid Hlv] E. destruct l as [|i|i]; simpl in E.
  - destruct (t_pc s) as [|st pc] eqn:Epc; [discriminate|].
    assert (Hcode' : main_code b x = (d ++ [st]) ++ pc) by now rewrite <- app_assoc.
    assert (Hne' : d ++ [st] <> []) by (destruct d; discriminate).
    assert (Hsn : forall u, In u (d ++ [st]) <-> In u d \/ u = st) by (intros; apply in_snoc).
    assert (Hpn : (forall j q k, st <> SConfigure j q k) -> forall i p, (exists k, In (SConfigure i p k) (d ++ [st])) <-> In (i, p) (t_prio s)).
    { intros N i p. rewrite <- Hp. split; intros [k H]; exists k; [|apply Hsn; auto]. apply Hsn in H as [H|H]; [auto|]. symmetry in H. now apply N in H. }
    assert (Hidn : (forall j q k, st <> SConfigure j q k) -> forall i p id, In (SConfigure i p (Some id)) (d ++ [st]) -> id < 32).
    { intros N i p id H. apply Hsn in H as [H|H]; [eauto|]. symmetry in H. now apply N in H. }
    destruct st as [| j q k | | n | n | |]; [|destruct (ic_config j q k (t_hw s)) as [h|] eqn:Eh; [|discriminate]|..]; injection E as <-.
    + exists (d ++ [SDisable]); constructor; simpl; auto; try tauto; [..|apply Hpn; discriminate|rewrite hw_after_snoc; exact Hh|apply Hidn; discriminate]; intros; rewrite Hsn; rewrite ?Hin, ?Hs, ?Hl, ?Hp; split; try tauto; intros [H|H]; auto; discriminate.
    + exists (d ++ [SConfigure j q k]); constructor; simpl; auto; try tauto.
      * intros _ HI. apply Hoff; [|now right]. intros ->. simpl in Hcode. unfold main_code in Hcode. discriminate.
      * rewrite Hsn, Hin. split; [auto|intros [H|H]; [auto|discriminate]].
      * intros n. rewrite Hsn, Hs. split; [intros [H|H]; [auto|discriminate]|auto].
      * intros n. rewrite Hsn, Hl. split; [intros [H|H]; [auto|discriminate]|auto].
      * intros i p. split.
        -- intros [k' H]. apply Hsn in H as [H|H]; [right; apply Hp; eauto|injection H as -> -> ->; auto].
        -- intros [[= <- <-]|H]; [exists k; apply Hsn; auto|apply Hp in H as [k' H]; exists k'; apply Hsn; auto].
      * rewrite hw_after_snoc. unfold ic_config in Eh. destruct k as [id|]; [destruct (id <? 32); [|discriminate]; injection Eh as <-; now rewrite Hh|injection Eh as <-; exact Hh].
      * intros i p id H. apply Hsn in H as [H|H]; [eauto|]. injection H as -> -> <-. unfold ic_config in Eh. destruct (Nat.ltb_spec id 32); [auto|discriminate].
      * intros i p [[= <- <-]|H]; [auto|right; eauto].
    + exists (d ++ [SInit]); constructor; simpl; auto; try tauto.
      * intros _ HI. apply Hoff; [|now right]. intros ->. simpl in Hcode. unfold main_code in Hcode. discriminate.
      * rewrite Hsn. split; auto.
      * intros n. rewrite Hsn, Hs. split; [intros [H|H]; [auto|discriminate]|auto].
      * intros n. rewrite Hsn, Hl. split; [intros [H|H]; [auto|discriminate]|auto].
      * apply Hpn; discriminate.
      * rewrite hw_after_snoc. exact Hh.
      * apply Hidn; discriminate.
    + exists (d ++ [SWriteShared n]); constructor; simpl; auto; try tauto.
      * intros _ HI. apply Hoff; [|now right]. intros ->. simpl in Hcode. unfold main_code in Hcode. discriminate.
      * rewrite Hsn, Hin. split; [auto|intros [H|H]; [auto|discriminate]].
      * intros k v [[= <- <-]|H]; [reflexivity|auto].
      * intros m. rewrite Hsn, Hs. split; [intros [H|H]; [auto|injection H as ->; auto]|intros [H|H]; [injection H as _ ->; auto|auto]].
      * intros m. rewrite Hsn, Hl. split; [intros [H|H]; [auto|discriminate]|intros [H|H]; [discriminate|auto]].
      * apply Hpn; discriminate.
      * rewrite hw_after_snoc. exact Hh.
      * apply Hidn; discriminate.
    + exists (d ++ [SWriteLocal n]); constructor; simpl; auto; try tauto.
      * intros _ HI. apply Hoff; [|now right]. intros ->. simpl in Hcode. unfold main_code in Hcode. discriminate.
      * rewrite Hsn, Hin. split; [auto|intros [H|H]; [auto|discriminate]].
      * intros k v [[= <- <-]|H]; [reflexivity|auto].
      * intros m. rewrite Hsn, Hs. split; [intros [H|H]; [auto|discriminate]|intros [H|H]; [discriminate|auto]].
      * intros m. rewrite Hsn, Hl. split; [intros [H|H]; [auto|injection H as ->; auto]|intros [H|H]; [injection H as _ ->; auto|auto]].
      * apply Hpn; discriminate.
      * rewrite hw_after_snoc. exact Hh.
      * apply Hidn; discriminate.
    + assert (pc = [SThread]) as ->.
      { rewrite Hcode in Hc. clear - Hc Hne. revert d Hc. induction c as [|u c IH]; intros d Hc; simpl in *.
        - destruct d as [|v d]; simpl in Hc; [injection Hc as ->; auto|]. injection Hc as _ Hc. destruct d as [|w d]; simpl in Hc; [discriminate|]. injection Hc as _ Hc. destruct d; discriminate.
        - destruct d as [|v d]; simpl in Hc; [injection Hc as <- _; exfalso; apply Hne; now left|]. injection Hc as _ Hc. eapply IH; eauto. }
      exists (d ++ [SEnable]); constructor; simpl; auto; try tauto.
      * intros _ [HI|[]]. discriminate.
      * rewrite Hsn, Hin. split; [auto|intros [H|H]; [auto|discriminate]].
      * intros n. rewrite Hsn, Hs. split; [intros [H|H]; [auto|discriminate]|auto].
      * intros n. rewrite Hsn, Hl. split; [intros [H|H]; [auto|discriminate]|auto].
      * apply Hpn; discriminate.
      * rewrite hw_after_snoc. exact Hh.
      * apply Hidn; discriminate.
    + exists d; constructor; auto. now rewrite Epc.
      now rewrite Epc.
  - destruct (t_pc s) as [|[] pc] eqn:Epc; try discriminate. injection E as <-. exists d; constructor; simpl; auto.
    + intros ->. simpl in Hcode. unfold main_code in Hcode. discriminate.
    + intros j p H. right. eauto.
  - destruct (t_on s && mem i (t_live s)); [injection E as <-|discriminate]. exists d; constructor; auto.
Qed.
End S.

Lemma list_eq_nil_dec {V} (l : list V) : {l = []} + {l <> []}.
Proof. destruct l; [left; auto|right; discriminate]. Defined.

Section R.
Context (b : bkind) (disp : list ident) (items : list item) (a : app) (x : expansion) (H : accepted b disp items a x).
Let P := ac_parsed H.
Let W := pd_wf P.
Definition before : list stmt :=
  [SDisable] ++ map (fun c => SConfigure (fst (fst c)) (snd (fst c)) (snd c)) (routes b x) ++ [SInit] ++
  map (fun r => SWriteShared (fst r)) (filter (fun r => mem (fst r) (y_shared (x_ana x))) (ap_shared (x_app x))) ++
  map (fun r => SWriteLocal (fst r)) (filter (fun r => mem (fst r) (y_local (x_ana x))) (ap_local (x_app x))).
Lemma main_split : main_code b x = before ++ [SEnable; SThread].
Proof. unfold main_code, before. now rewrite <- !app_assoc. Qed.
Lemma routes_fst : map fst (routes b x) = configured b (x_app x) (x_ints x).
Proof. unfold routes. generalize (configured b (x_app x) (x_ints x)). intros l. generalize 0. induction l as [|c l IH]; intros n; simpl; [auto|]. now rewrite IH. Qed.
Lemma configured_route i p : In (i, p) (configured b (x_app x) (x_ints x)) <-> exists k, In (i, p, k) (routes b x).
Proof. rewrite <- routes_fst, in_map_iff. split; [intros ([[i' p'] k] & [= -> ->] & I); eauto|intros [k I]; exists (i, p, k); auto]. Qed.
Lemma in_before st : In st before <-> st = SDisable \/ (exists i p k, st = SConfigure i p k /\ In (i, p, k) (routes b x)) \/ st = SInit \/
  (exists n r, st = SWriteShared n /\ In (n, r) (ap_shared a) /\ In n (y_shared (x_ana x))) \/ (exists n r, st = SWriteLocal n /\ In (n, r) (ap_local a) /\ In n (y_local (x_ana x))).
Proof.
  unfold before. rewrite !in_app_iff, !in_map_iff, (acc_shared H), (acc_local H). simpl. split.
  - intros [[<-|[]]|[(((i, p), k) & <- & I)|[[<-|[]]|[((n, r) & <- & I)|((n, r) & <- & I)]]]]; auto.
    + right. left. exists i, p, k. auto.
    + right. right. right. left. apply filter_In in I as [I M]. apply mem_in in M. exists n, r. auto.
    + right. right. right. right. apply filter_In in I as [I M]. apply mem_in in M. exists n, r. auto.
  - intros [->|[(i & p & k & -> & I)|[->|[(n & r & -> & I & M)|(n & r & -> & I & M)]]]]; auto.
    + right. left. exists (i, p, k). auto.
    + right. right. right. left. exists (n, r). split; [auto|]. apply filter_In. split; [auto|]. now apply mem_in.
    + right. right. right. right. exists (n, r). split; [auto|]. apply filter_In. split; [auto|]. now apply mem_in.
Qed.
Lemma no_enable : ~ In SEnable before /\ ~ In SThread before.
Proof. split; intros I; apply in_before in I as [I|[(i & p & k & I & _)|[I|[(n & r & I & _)|(n & r & I & _)]]]]; discriminate. Qed.
Lemma sreach_inv s : sreach b x s -> exists d, sinv b x s d.
Proof.
  intros (on & R). refine (@reach_inv _ _ (sstep x) (fun s => exists d, sinv b x s d) _ _ _ s R).
  - exists []. constructor; simpl; auto; try tauto.
    + split; [discriminate|tauto].
    + intros i p. split; [intros [k []]|tauto].
  - intros s0 l s' (d & I) E. eapply sinv_step; eauto. exists before. split; [apply main_split|apply no_enable].
Qed.
Lemma suffix_cases d pc : d ++ pc = before ++ [SEnable; SThread] -> In SEnable pc \/ (exists d', d = before ++ SEnable :: d').
Proof.
  intros E. destruct no_enable as [N _]. revert d E N. generalize before. induction l as [|u l IH]; intros d E N; simpl in *.
  - destruct d as [|v d]; simpl in E; [left; subst pc; now left|]. injection E as -> E. right. now exists d.
  - destruct d as [|v d]; simpl in E; [left; rewrite E; right; apply in_app_iff; right; now left|]. injection E as -> E. destruct (IH d E) as [I|[d' ->]]; [tauto|auto|right; now exists d'].
Qed.
(** Once interrupts are on again, or thread mode is reached, everything is done. *)
Lemma started s : sreach b x s -> (t_on s = true /\ t_live s <> []) \/ (exists pc, t_pc s = SThread :: pc) -> exists d, sinv b x s d /\ (forall st, In st before -> In st d) /\ ~ In SEnable (t_pc s).
Proof.
  intros R C. destruct (sreach_inv R) as [d I]. exists d. split; [auto|]. pose proof (si_code I) as E. rewrite main_split in E.
  destruct (suffix_cases _ _ (eq_sym E)) as [J|[d' ->]].
  - exfalso. destruct C as [[C1 C2]|[pc C]].
    + destruct (list_eq_nil_dec d) as [->|Hd]; [now rewrite (si_reset I eq_refl) in C2|]. rewrite (si_off I Hd J) in C1. discriminate.
    + rewrite C in *. clear C R. destruct no_enable as [N1 N2]. revert E N1 N2. generalize before. clear I. revert J. intros J l. revert d. induction l as [|u l IH]; intros d E N1 N2; simpl in *.
      * destruct d as [|v [|w [|z d]]]; simpl in E; try discriminate; injection E; intros; subst; try discriminate. destruct J as [J|J]; [discriminate|destruct J].
      * destruct d as [|v d]; simpl in E; injection E as E1 E2; [subst u; apply N2; now left|]. apply (IH d E2); tauto.
  - split; [intros st M; apply in_app_iff; auto|]. rewrite <- app_assoc in E. apply app_inv_head in E. simpl in E. injection E as E. intros J. destruct d' as [|v d']; simpl in E; [rewrite <- E in J; destruct J as [J|[]]; discriminate|].
    injection E as _ E. destruct d'; simpl in E; [rewrite <- E in J; destruct J|discriminate].
Qed.
Lemma mem_val s d v : sinv b x s d -> In (static_of v, v) (t_mem s) -> holds_val s (static_of v) = Some v.
Proof.
  intros I M. unfold holds_val. destruct (iget (t_mem s) (static_of v)) as [w|] eqn:E.
  - apply iget_in in E. apply (si_memk I) in E. apply static_of_inj in E. now subst w.
  - exfalso. apply (proj1 (iget_none _ _)) in E. apply E. apply in_map_iff. now exists (static_of v, v).
Qed.
Lemma statics_ready s d n k p ar st v : sinv b x s d -> (forall u, In u before -> In u d) -> is_task a n k p ar -> In (st, v) (task_statics x ar) -> holds_val s st = Some v.
Proof.
  intros I D T M. unfold task_statics in M. apply in_app_iff in M as [M|M].
  - apply in_map_iff in M as ([r ac] & [= <- <-] & M). simpl. apply (mem_val (VShared r) I). apply (si_shared I). apply D. apply in_before. right. right. right. left.
    assert (U : uses_shared items n p r ac) by (apply (uses_shared_iff H); eauto). destruct (used_shared_declared H U) as [s' F]. apply (pd_shared P) in F. exists r, s'. split; [auto|]. split; [auto|].
    rewrite (acc_ana H). cbn [y_shared]. apply (proj1 (own_loop_inv a)). exists p. apply (prios_iff H). eauto.
  - apply in_map_iff in M as (r & [= <- <-] & M). apply (mem_val (VLocal r) I). apply (si_local I). apply D. apply in_before. right. right. right. right.
    assert (M' : In (r, External) (a_local ar)). { unfold externals in M. apply in_map_iff in M as ([y e] & <- & M). apply filter_In in M as [M F]. unfold is_external in F. simpl in *. now destruct e. }
    assert (U : uses_local items n p r) by (apply (uses_local_iff H); eauto). destruct (used_local_declared H U) as [s' F]. apply (pd_local P) in F. exists r, s'. split; [auto|]. split; [auto|].
    rewrite (acc_ana H). cbn [y_local]. apply loc_loop_used. exists n, (map fst (a_shared ar)), (a_local ar), p. split; [apply in_task_list; right; eauto|]. apply in_map_iff. now exists (r, External).
Qed.
Lemma to_configure_vec i p : In (i, p) (to_configure (x_app x) (x_ints x)) <-> exists ts, In (i, p, ts) (vectors x).
Proof.
  unfold to_configure, vectors. rewrite in_app_iff, !in_map_iff. split.
  - intros [((q, d) & [= <- <-] & I)|((n, t) & [= <- <-] & I)]; simpl.
    + exists (chan x q). apply in_app_iff. right. apply in_map_iff. exists (q, d). auto.
    + exists [n]. apply in_app_iff. left. apply in_map_iff. exists (n, t). auto.
  - intros (ts & I). apply in_app_iff in I as [I|I]; apply in_map_iff in I.
    + destruct I as ((n, t) & [= <- <- <-] & I). right. exists (n, t). auto.
    + destruct I as ((q, d) & [= <- <- <-] & I). left. exists (q, d). auto.
Qed.
Lemma configured_vec i p : In (i, p) (configured b (x_app x) (x_ints x)) -> exists ts, In (i, p, ts) (vectors x).
Proof.
  intros I. apply to_configure_vec. unfold configured in I. destruct b; auto. rewrite <- (firstn_skipn 12 (to_configure (x_app x) (x_ints x))). apply in_app_iff. auto.
Qed.
Lemma vec_configured v : In v (vectors x) -> (b = Esp32c6 -> length (vectors x) <= 12) -> In (fst v) (configured b (x_app x) (x_ints x)).
Proof.
  intros I L. assert (In (fst v) (to_configure (x_app x) (x_ints x))) as J. { destruct v as [[i p] ts]. apply to_configure_vec. eauto. }
  unfold configured. destruct b; auto. rewrite firstn_all2; [auto|]. unfold to_configure. unfold vectors in L. rewrite app_length, !map_length in *. specialize (L eq_refl). lia.
Qed.
End R.
