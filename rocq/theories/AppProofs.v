(** Proofs about the macro model: parsing. *)
From Verif Require Import Base AppModel AppSpec.
Set Implicit Arguments.

Lemma ieq_spec x y : ieq x y = true <-> x = y.
Proof. apply String.eqb_eq. Qed.
Lemma ieq_refl x : ieq x x = true.
Proof. now apply ieq_spec. Qed.
Lemma ieq_false x y : ieq x y = false <-> x <> y.
Proof. apply String.eqb_neq. Qed.
Lemma mem_in x l : mem x l = true <-> In x l.
Proof. unfold mem. rewrite existsb_exists. split; [intros (y & H & E); apply ieq_spec in E; now subst|intros H; exists x; now rewrite ieq_refl]. Qed.
Lemma mem_false x l : mem x l = false <-> ~ In x l.
Proof. rewrite <- mem_in. now destruct (mem x l). Qed.

Section IMapLemmas.
Context {V : Type}.
Implicit Types (m acc l : list (ident * V)).
Lemma iget_in m k v : iget m k = Some v -> In (k, v) m.
Proof. induction m as [|[k' v'] m IH]; simpl; [discriminate|]. destruct (ieq k k') eqn:E; [apply ieq_spec in E; subst; intros [= ->]; auto|auto]. Qed.
Lemma iget_none m k : iget m k = None <-> ~ In k (map fst m).
Proof.
  induction m as [|[k' v'] m IH]; simpl; [tauto|]. destruct (ieq k k') eqn:E.
  - apply ieq_spec in E. subst. split; [discriminate|intros H; contradict H; auto].
  - apply ieq_false in E. rewrite IH. split; [intros H [H1|H1]; [congruence|tauto]|tauto].
Qed.
Lemma in_iget m k v : NoDup (map fst m) -> In (k, v) m -> iget m k = Some v.
Proof.
  induction m as [|[k' v'] m IH]; simpl; [tauto|]. intros N H. inversion N; subst. destruct H as [[= -> ->]|H]; [now rewrite ieq_refl|].
  destruct (ieq k k') eqn:E; [|auto]. apply ieq_spec in E. subst. contradict H2. apply in_map_iff. now exists (k', v).
Qed.
Lemma ihas_in m k : ihas m k = true <-> In k (map fst m).
Proof. unfold ihas. destruct (iget m k) eqn:E; [apply iget_in in E; split; [intros _; apply in_map_iff; now exists (k, v)|auto]|apply iget_none in E; split; [discriminate|contradiction]]. Qed.
Lemma ihas_false m k : ihas m k = false <-> ~ In k (map fst m).
Proof. rewrite <- ihas_in. now destruct (ihas m k). Qed.
Lemma iinsert_new m k v : ~ In k (map fst m) -> iinsert m k v = m ++ [(k, v)].
Proof.
  induction m as [|[k' v'] m IH]; simpl; [reflexivity|]. intros H. destruct (ieq k k') eqn:E; [apply ieq_spec in E; subst; tauto|].
  f_equal. apply IH. tauto.
Qed.
Lemma iget_insert m k v k' : iget (iinsert m k v) k' = if ieq k' k then Some v else iget m k'.
Proof.
  induction m as [|[k0 v0] m IH]; simpl; [reflexivity|]. destruct (ieq k k0) eqn:E; simpl.
  - apply ieq_spec in E. subst. now destruct (ieq k' k0).
  - rewrite IH. destruct (ieq k' k0) eqn:E1; [|reflexivity]. destruct (ieq k' k) eqn:E2; [|reflexivity].
    apply ieq_spec in E1, E2. subst. now rewrite ieq_refl in E.
Qed.
Lemma no_dups_spec acc l m : no_dups acc l = Some m -> m = acc ++ l /\ (NoDup (map fst acc) -> NoDup (map fst m)).
Proof.
  revert acc. induction l as [|[k v] l IH]; simpl; intros acc H.
  - injection H as <-. rewrite app_nil_r. auto.
  - destruct (ihas acc k) eqn:E; [discriminate|]. apply IH in H as [-> H]. rewrite <- app_assoc in *. split; [reflexivity|].
    intros N. apply H. rewrite map_app. simpl. apply ihas_false in E. apply NoDup_app_intro; [exact N|repeat constructor; auto|]. intros x Hx [<-|[]]. contradiction.
Qed.
Lemma no_dups_total acc l : NoDup (map fst (acc ++ l)) -> no_dups acc l = Some (acc ++ l).
Proof.
  revert acc. induction l as [|[k v] l IH]; simpl; intros acc H; [now rewrite app_nil_r|].
  destruct (ihas acc k) eqn:E.
  - apply ihas_in in E. rewrite map_app in H. simpl in H. apply NoDup_remove_2 in H. contradict H. apply in_app_iff. auto.
  - rewrite IH by (rewrite <- app_assoc; exact H). now rewrite <- app_assoc.
Qed.
End IMapLemmas.

Lemma parse_shared_spec o l : parse_shared o = Some l -> l = opt_list o /\ NoDup (map fst l).
Proof. destruct o; simpl; [|intros [= <-]; split; [reflexivity|constructor]]. intros H. apply no_dups_spec in H as [-> H]. split; [reflexivity|]. apply H. constructor. Qed.
Lemma parse_local_spec o l : parse_local o = Some l -> l = opt_list o /\ NoDup (map fst l).
Proof.
  destruct o as [l0|]; simpl; [|intros [= <-]; split; [reflexivity|constructor]]. intros H. destruct (no_dups [] l0) as [m|] eqn:E; [|discriminate].
  apply no_dups_spec in E as [-> E]. simpl in *. destruct l0; [discriminate|]. injection H as <-. split; [reflexivity|]. apply E. constructor.
Qed.
Lemma mk_args_spec sh lo a : mk_args sh lo = Some a -> a = mkArgs (opt_list sh) (opt_list lo) /\ NoDup (map fst (a_shared a)) /\ NoDup (map fst (a_local a)).
Proof.
  unfold mk_args. destruct (parse_shared sh) eqn:E1; [|discriminate]. destruct (parse_local lo) eqn:E2; [|discriminate]. intros [= <-].
  apply parse_shared_spec in E1 as [-> H1]. apply parse_local_spec in E2 as [-> H2]. auto.
Qed.

(** The tasks of the parsed application. *)
Inductive is_task (a : app) : ident -> kind -> nat -> args -> Prop :=
| T_idle n ar : ap_idle a = Some (n, ar) -> is_task a n KIdle 0 ar
| T_hw n t : In (n, t) (ap_hw a) -> is_task a n (KHard (hw_binds t)) (hw_prio t) (hw_args t)
| T_sw n t : In (n, t) (ap_sw a) -> is_task a n KSoft (sw_prio t) (sw_args t).
Definition idle_names (a : app) : list ident := match ap_idle a with Some (n, _) => [n] | None => [] end.
Record app_wf (a : app) : Prop := mkWf {
  wf_names : NoDup (fst (ap_init a) :: idle_names a ++ map fst (ap_hw a) ++ map fst (ap_sw a));
  wf_binds : NoDup (map (fun t => hw_binds (snd t)) (ap_hw a));
  wf_shared : NoDup (map fst (ap_shared a));
  wf_local : NoDup (map fst (ap_local a));
  wf_disp : NoDup (ap_disp a);
  wf_args : forall n k p ar, is_task a n k p ar -> NoDup (map fst (a_shared ar)) /\ NoDup (map fst (a_local ar));
  wf_init : forall x, In x (snd (ap_init a)) -> snd x = Declared;
  wf_init_nd : NoDup (map fst (snd (ap_init a)));
  wf_prio : forall n k p ar, is_task a n k p ar -> p <= 255 /\ (forall b, k = KHard b -> 1 <= p)
}.

(** Parser state as an application, for the invariant. *)
Definition st_app (s : pst) : app := mkApp [] (match p_init s with Some (n, l, _, _) => (n, l) | None => (EmptyString, []) end) (p_idle s) (p_shared s) (p_local s) (p_hw s) (p_sw s).
Definition st_names (s : pst) : list ident :=
  (match p_init s with Some (n, _, _, _) => [n] | None => [] end) ++ idle_names (st_app s) ++ map fst (p_hw s) ++ map fst (p_sw s).
Record pinv (done : list item) (s : pst) : Prop := mkPi {
  pi_names : NoDup (st_names s); pi_seen : forall n, In n (st_names s) <-> In n (p_seen s);
  pi_binds : NoDup (map (fun t => hw_binds (snd t)) (p_hw s)); pi_bind : forall b, In b (map (fun t => hw_binds (snd t)) (p_hw s)) <-> In b (p_bind s);
  pi_shared : NoDup (map fst (p_shared s)); pi_local : NoDup (map fst (p_local s));
  pi_args : forall n k p ar, is_task (st_app s) n k p ar -> NoDup (map fst (a_shared ar)) /\ NoDup (map fst (a_local ar)) /\ p <= 255 /\ (forall b, k = KHard b -> 1 <= p);
  pi_init : match p_init s with Some (n, l, sn, ln) => NoDup (map fst l) /\ (forall x, In x l -> snd x = Declared) /\ (exists lo, In (IInit n lo sn ln) done /\ l = opt_list lo) /\
              (forall n' lo' sn' ln', In (IInit n' lo' sn' ln') done -> n' = n /\ opt_list lo' = l) | None => forall n lo sn ln, ~ In (IInit n lo sn ln) done end;
  pi_task : forall n k p sh lo, src_task done n k p sh lo <-> is_task (st_app s) n k p (mkArgs sh lo);
  pi_sh : forall x r, shared_field done x r <-> In (x, r) (p_shared s);
  pi_lo : forall x t, local_field done x t <-> In (x, t) (p_local s);
  pi_sw : forall n t, In (n, t) (p_sw s) <-> exists r, In (ITask n r) done /\ rt_binds r = None /\
            t = mkSw (soft_prio r) (mkArgs (opt_list (rt_shared r)) (opt_list (rt_local r))) (rt_inputs r) (match rt_local_task r with Some b => b | None => false end)
}.

Lemma src_task_snoc done i n k p sh lo : src_task (done ++ [i]) n k p sh lo <-> src_task done n k p sh lo \/ src_task [i] n k p sh lo.
Proof.
  split.
  - intros H. destruct H as [n sh lo H|n r b H|n r H]; apply in_app_iff in H as [H|H]; [left|right|left|right|left|right]; try (constructor; assumption); now apply S_hard.
  - intros [H|H]; destruct H as [n sh lo H|n r b H|n r H]; (apply S_idle || apply S_hard || apply S_soft); auto; apply in_app_iff; auto.
Qed.

Lemma src_init n lo sn ln n' k p sh l : ~ src_task [IInit n lo sn ln] n' k p sh l.
Proof. intros H; destruct H as [? ? ? [H|[]]|? ? ? [H|[]]|? ? [H|[]]]; discriminate. Qed.
Lemma src_sh n fs n' k p sh l : ~ src_task [IShared n fs] n' k p sh l.
Proof. intros H; destruct H as [? ? ? [H|[]]|? ? ? [H|[]]|? ? [H|[]]]; discriminate. Qed.
Lemma src_lo n fs n' k p sh l : ~ src_task [ILocal n fs] n' k p sh l.
Proof. intros H; destruct H as [? ? ? [H|[]]|? ? ? [H|[]]|? ? [H|[]]]; discriminate. Qed.

Lemma shared_field_other done i x r : (forall n fs, i <> IShared n fs) -> (shared_field (done ++ [i]) x r <-> shared_field done x r).
Proof.
  intros Hi. split; intros (s & fs & H & H').
  - apply in_app_iff in H as [H|[H|[]]]; [exists s, fs; auto|now apply Hi in H].
  - exists s, fs. split; [apply in_app_iff; auto|auto].
Qed.
Lemma local_field_other done i x t : (forall n fs, i <> ILocal n fs) -> (local_field (done ++ [i]) x t <-> local_field done x t).
Proof.
  intros Hi. split; intros (s & fs & H & H').
  - apply in_app_iff in H as [H|[H|[]]]; [exists s, fs; auto|now apply Hi in H].
  - exists s, fs. split; [apply in_app_iff; auto|auto].
Qed.
Lemma shared_field_new done n fs x r : shared_field (done ++ [IShared n fs]) x r <-> shared_field done x r \/ In (x, r) fs.
Proof.
  split.
  - intros (s & f & H & H'). apply in_app_iff in H as [H|[[= <- <-]|[]]]; [left; exists s, f; auto|auto].
  - intros [(s & f & H & H')|H]; [exists s, f; split; [apply in_app_iff; auto|auto]|exists n, fs; split; [apply in_app_iff; right; now left|auto]].
Qed.
Lemma local_field_new done n fs x r : local_field (done ++ [ILocal n fs]) x r <-> local_field done x r \/ In (x, r) fs.
Proof.
  split.
  - intros (s & f & H & H'). apply in_app_iff in H as [H|[[= <- <-]|[]]]; [left; exists s, f; auto|auto].
  - intros [(s & f & H & H')|H]; [exists s, f; split; [apply in_app_iff; auto|auto]|exists n, fs; split; [apply in_app_iff; right; now left|auto]].
Qed.
Definition sw_of (r : rawtask) : swtask :=
  mkSw (soft_prio r) (mkArgs (opt_list (rt_shared r)) (opt_list (rt_local r))) (rt_inputs r) (match rt_local_task r with Some b => b | None => false end).
Lemma sw_other done i n t : (forall n r, i <> ITask n r) -> ((exists r, In (ITask n r) (done ++ [i]) /\ rt_binds r = None /\ t = sw_of r) <-> (exists r, In (ITask n r) done /\ rt_binds r = None /\ t = sw_of r)).
Proof.
  intros Hi. split; intros (r & H & H'); exists r; (split; [|exact H']).
  - apply in_app_iff in H as [H|[H|[]]]; [auto|now apply Hi in H].
  - apply in_app_iff. auto.
Qed.

Lemma task_args_spec r t : task_args r = Some t ->
  NoDup (map fst (opt_list (rt_shared r))) /\ NoDup (map fst (opt_list (rt_local r))) /\
  match t with
  | inl h => exists b, rt_binds r = Some b /\ h = mkHw b (match rt_prio r with Some p => p | None => 1 end) (mkArgs (opt_list (rt_shared r)) (opt_list (rt_local r))) /\ 1 <= hw_prio h <= 255
  | inr w => rt_binds r = None /\ w = sw_of r /\ sw_prio w <= 255
  end.
Proof.
  unfold task_args. destruct (match rt_prio r with Some p => 255 <? p | None => false end) eqn:Ep; [discriminate|].
  destruct (mk_args (rt_shared r) (rt_local r)) as [a|] eqn:Ea; [|discriminate]. apply mk_args_spec in Ea as (-> & H1 & H2). simpl in *.
  assert (Hp : match rt_prio r with Some p => p <= 255 | None => True end). { destruct (rt_prio r); [|trivial]. apply Nat.ltb_ge in Ep. exact Ep. }
  clear Ep. destruct (rt_binds r) as [b|].
  - destruct (_ =? 0) eqn:E0; [discriminate|]. intros [= <-]. apply Nat.eqb_neq in E0. repeat split; auto. exists b. simpl. repeat split; auto; destruct (rt_prio r); lia.
  - intros [= <-]. repeat split; auto. simpl. destruct (rt_prio r); lia.
Qed.

Lemma is_task_ext (a b : app) n k p ar : ap_idle a = ap_idle b -> ap_hw a = ap_hw b -> ap_sw a = ap_sw b -> (is_task a n k p ar <-> is_task b n k p ar).
Proof. intros H1 H2 H3. split; intros H; destruct H as [n ar H|n t H|n t H]; [apply T_idle|apply T_hw|apply T_sw|apply T_idle|apply T_hw|apply T_sw]; congruence. Qed.

Lemma nodup_mid (l1 l2 : list ident) x : NoDup (l1 ++ l2) -> ~ In x (l1 ++ l2) -> NoDup (l1 ++ x :: l2).
Proof. intros H1 H2. apply (NoDup_Add (a := x) (l := l1 ++ l2)); [apply Add_app|]. auto. Qed.

Lemma parse_item_inv done s i s' : pinv done s -> parse_item s i = Some s' -> pinv (done ++ [i]) s'.
Proof.
  intros I H. destruct I as [I1 I2 I3 I4 I5 I6 I7 I8 I9 I10 I11 I12]. destruct i as [n lo sn ln|n sh lo|n r|n fs|n fs]; simpl in H.
  - (* init *)
    destruct (init_args lo) as [l|] eqn:El; [|discriminate]. destruct (p_init s) as [q|] eqn:Ei; [discriminate|]. destruct (mem n (p_seen s)) eqn:En; [discriminate|]. injection H as <-.
    apply mem_false in En. rewrite <- I2 in En. unfold st_names in *. rewrite Ei in *. simpl in I1, I2, En.
    unfold init_args in El. destruct (parse_local lo) as [l'|] eqn:Ep; [|discriminate]. apply parse_local_spec in Ep as [-> Np].
    destruct (existsb _ (opt_list lo)) eqn:Ee; [discriminate|]. injection El as <-.
    constructor; simpl; auto.
    + constructor; auto.
    + intros m. simpl. rewrite <- I2. tauto.
    + intros m' k' p' ar' H'. apply (I7 m' k' p' ar'). revert H'. apply is_task_ext; reflexivity.
    + repeat split; auto.
      * intros x Hx. destruct (snd x) eqn:Ex; [|reflexivity]. exfalso. rewrite <- not_true_iff_false in Ee. apply Ee. apply existsb_exists. exists x. now rewrite Ex.
      * exists lo. split; [apply in_app_iff; right; now left|reflexivity].
      * apply in_app_iff in H as [H|[H|[]]]; [now apply I8 in H|congruence].
      * apply in_app_iff in H as [H|[H|[]]]; [now apply I8 in H|congruence].
    + intros. rewrite src_task_snoc, I9. split; [intros [H|H]; [|now apply src_init in H]|left]; revert H; apply is_task_ext; reflexivity.
    + intros. rewrite shared_field_other by discriminate. apply I10.
    + intros. rewrite local_field_other by discriminate. apply I11.
    + intros. rewrite I12. symmetry. now apply sw_other.
  - (* idle *)
    destruct (mk_args sh lo) as [a|] eqn:Ea; [|discriminate]. destruct (p_idle s) as [q|] eqn:Ei; [discriminate|]. destruct (mem n (p_seen s)) eqn:En; [discriminate|]. injection H as <-.
    apply mem_false in En. rewrite <- I2 in En. unfold st_names, idle_names in *. simpl in *. rewrite Ei in *. simpl in *.
    apply mk_args_spec in Ea as (-> & N1 & N2). simpl in *.
    constructor; simpl; auto.
    + unfold st_names, idle_names. simpl. now apply nodup_mid.
    + intros m. unfold st_names, idle_names. simpl. rewrite <- I2, !in_app_iff. simpl. rewrite !in_app_iff. tauto.
    + intros m k p ar H. destruct H as [m ar H|m t H|m t H]; simpl in H.
      * injection H as <- <-. repeat split; auto; [lia|discriminate].
      * apply (I7 m). now apply T_hw.
      * apply (I7 m). now apply T_sw.
    + destruct (p_init s) as [[[[? ?] ?] ?]|]; [|intros ? ? ? ? H; apply in_app_iff in H as [H|[H|[]]]; [now apply I8 in H|discriminate]].
      destruct I8 as (J1 & J2 & (lo' & J3 & J4) & J5). repeat split; auto; [exists lo'; split; [apply in_app_iff; auto|auto]| |];
        (apply in_app_iff in H as [H|[H|[]]]; [now apply J5 in H|discriminate]).
    + intros. rewrite src_task_snoc, I9. split.
      * intros [H|H].
        -- inversion H; subst; simpl in *; [congruence|apply (@T_hw (st_app (mkP _ _ _ _ _ _ _ _ _ _))); assumption|apply (@T_sw (st_app (mkP _ _ _ _ _ _ _ _ _ _))); assumption].
        -- destruct H as [? ? ? [[= <- <- <-]|[]]|? ? ? [H|[]]|? ? [H|[]]]; try discriminate. now apply T_idle.
      * intros H. inversion H; subst; simpl in *; [right; match goal with E : Some _ = Some _ |- _ => injection E as <- <- <- end; apply S_idle; now left|left; now apply (@T_hw (st_app s))|left; now apply (@T_sw (st_app s))].
    + intros. rewrite shared_field_other by discriminate. apply I10.
    + intros. rewrite local_field_other by discriminate. apply I11.
    + intros. rewrite I12. symmetry. now apply sw_other.
  - (* task *)
    destruct (ihas (p_hw s) n || ihas (p_sw s) n) eqn:Eh; [discriminate|]. apply orb_false_iff in Eh as [Eh Es]. apply ihas_false in Eh, Es.
    destruct (task_args r) as [t|] eqn:Et; [|discriminate]. apply task_args_spec in Et as (N1 & N2 & Et). destruct t as [t|t].
    + destruct (mem (hw_binds t) (p_bind s)) eqn:Eb; [discriminate|]. destruct (mem n (p_seen s)) eqn:En; [discriminate|]. injection H as <-.
      apply mem_false in En, Eb. rewrite <- I2 in En. rewrite <- I4 in Eb. rewrite iinsert_new by assumption. destruct Et as (b & Eb' & Et & Hp).
      unfold st_names, idle_names in *. simpl in *.
      constructor; simpl; auto.
      * unfold st_names, idle_names. simpl. rewrite map_app. simpl. rewrite <- app_assoc. simpl. rewrite !app_assoc in *. now apply nodup_mid.
      * intros m. unfold st_names, idle_names. simpl. rewrite <- I2, map_app, !in_app_iff. simpl. tauto.
      * rewrite map_app. simpl. rewrite <- (app_nil_r (map _ (p_hw s))) in Eb, I3. apply nodup_mid with (x := hw_binds t) in I3; auto.
      * intros m. rewrite map_app, in_app_iff, I4. simpl. tauto.
      * intros m k p ar H. destruct H as [m ar H|m t0 H|m t0 H]; simpl in H.
        -- apply (I7 m). now apply T_idle.
        -- apply in_app_iff in H as [H|[[= <- <-]|[]]]; [apply (I7 m); now apply T_hw|]. subst t. simpl in *. repeat split; auto; lia.
        -- apply (I7 m). now apply T_sw.
      * destruct (p_init s) as [[[[? ?] ?] ?]|]; [|intros ? ? ? ? H; apply in_app_iff in H as [H|[H|[]]]; [now apply I8 in H|discriminate]].
        destruct I8 as (J1 & J2 & (lo' & J3 & J4) & J5). repeat split; auto; [exists lo'; split; [apply in_app_iff; auto|auto]| |];
          (apply in_app_iff in H as [H|[H|[]]]; [now apply J5 in H|discriminate]).
      * intros. rewrite src_task_snoc, I9. split.
        -- intros [H|H].
           ++ inversion H; subst; simpl in *; [now apply T_idle|apply (@T_hw (st_app (mkP _ _ _ _ _ _ _ _ _ _))); apply in_app_iff; auto|apply (@T_sw (st_app (mkP _ _ _ _ _ _ _ _ _ _))); assumption].
           ++ destruct H as [? ? ? [H|[]]|? ? b' [[= <- <-]|[]] E|? ? [[= <- <-]|[]] E]; try discriminate; [|congruence].
              rewrite Eb' in E. injection E as <-. subst t. apply (@T_hw (st_app (mkP _ _ _ _ _ _ _ _ _ _)) n (mkHw b _ _)). simpl. apply in_app_iff. right. now left.
        -- intros H. inversion H; subst; simpl in *; [left; now apply (@T_idle (st_app s))| |left; now apply (@T_sw (st_app s))].
           match goal with E : In _ (p_hw s ++ _) |- _ => apply in_app_iff in E as [E|[[= <- <-]|[]]] end; [left; now apply (@T_hw (st_app s))|].
           right. simpl in *. match goal with E : mkArgs _ _ = mkArgs _ _ |- _ => injection E as <- <- end. apply S_hard; [now left|assumption].
      * intros. rewrite shared_field_other by discriminate. apply I10.
      * intros. rewrite local_field_other by discriminate. apply I11.
      * intros m t0. rewrite I12. split; intros (r' & H & H'); exists r'; (split; [|exact H']); [apply in_app_iff; auto|].
        apply in_app_iff in H as [H|[[= <- <-]|[]]]; [auto|]. destruct H'. congruence.
    + destruct (mem n (p_seen s)) eqn:En; [discriminate|]. injection H as <-.
      apply mem_false in En. rewrite <- I2 in En. rewrite iinsert_new by assumption. destruct Et as (Eb' & Et & Hp).
      unfold st_names, idle_names in *. simpl in *.
      constructor; simpl; auto.
      * unfold st_names, idle_names. simpl. rewrite map_app. simpl. rewrite !app_assoc. rewrite !app_assoc in I1, En. rewrite <- (app_nil_r (_ ++ _)) in I1, En. apply nodup_mid; auto.
      * intros m. unfold st_names, idle_names. simpl. rewrite <- I2, map_app, !in_app_iff. simpl. tauto.
      * intros m k p ar H. destruct H as [m ar H|m t0 H|m t0 H]; simpl in H.
        -- apply (I7 m). now apply T_idle.
        -- apply (I7 m). now apply T_hw.
        -- apply in_app_iff in H as [H|[[= <- <-]|[]]]; [apply (I7 m); now apply T_sw|]. subst t. simpl in *. repeat split; auto; discriminate.
      * destruct (p_init s) as [[[[? ?] ?] ?]|]; [|intros ? ? ? ? H; apply in_app_iff in H as [H|[H|[]]]; [now apply I8 in H|discriminate]].
        destruct I8 as (J1 & J2 & (lo' & J3 & J4) & J5). repeat split; auto; [exists lo'; split; [apply in_app_iff; auto|auto]| |];
          (apply in_app_iff in H as [H|[H|[]]]; [now apply J5 in H|discriminate]).
      * intros. rewrite src_task_snoc, I9. split.
        -- intros [H|H].
           ++ inversion H; subst; simpl in *; [now apply T_idle|apply (@T_hw (st_app (mkP _ _ _ _ _ _ _ _ _ _))); assumption|apply (@T_sw (st_app (mkP _ _ _ _ _ _ _ _ _ _))); apply in_app_iff; auto].
           ++ destruct H as [? ? ? [H|[]]|? ? b' [[= <- <-]|[]] E|? ? [[= <- <-]|[]] E]; try discriminate; [congruence|].
              subst t. apply (@T_sw (st_app (mkP _ _ _ _ _ _ _ _ _ _)) n (sw_of r)). simpl. apply in_app_iff. right. now left.
        -- intros H. inversion H; subst; simpl in *; [left; now apply (@T_idle (st_app s))|left; now apply (@T_hw (st_app s))|].
           match goal with E : In _ (p_sw s ++ _) |- _ => apply in_app_iff in E as [E|[[= <- <-]|[]]] end; [left; now apply (@T_sw (st_app s))|].
           right. simpl in *. match goal with E : mkArgs _ _ = mkArgs _ _ |- _ => injection E as <- <- end. apply S_soft; [now left|assumption].
      * intros. rewrite shared_field_other by discriminate. apply I10.
      * intros. rewrite local_field_other by discriminate. apply I11.
      * intros m t0. rewrite in_app_iff, I12. split.
        -- intros [(r' & H & H')|[[= <- <-]|[]]]; [exists r'; split; [apply in_app_iff; auto|exact H']|]. exists r. repeat split; auto. apply in_app_iff. right. now left.
        -- intros (r' & H & H' & ->). apply in_app_iff in H as [H|[[= <- <-]|[]]]; [left; exists r'; auto|]. right. left. now subst.
  - (* shared *)
    destruct (p_shared s) as [|q m] eqn:Ei; [|discriminate]. destruct (no_dups [] fs) as [m|] eqn:Em; [|discriminate]. injection H as <-. apply no_dups_spec in Em as [-> Em]. simpl in *.
    assert (E0 : forall x r, ~ shared_field done x r) by (intros x r H; now apply I10 in H).
    constructor; simpl; try exact I1; try exact I2; auto.
    + intros m' k' p' ar' H'. apply (I7 m' k' p' ar'). revert H'. apply is_task_ext; reflexivity.
    + destruct (p_init s) as [[[[? ?] ?] ?]|]; [|intros ? ? ? ? H; apply in_app_iff in H as [H|[H|[]]]; [now apply I8 in H|discriminate]].
      destruct I8 as (J1 & J2 & (lo' & J3 & J4) & J5). repeat split; auto; [exists lo'; split; [apply in_app_iff; auto|auto]| |];
        (apply in_app_iff in H as [H|[H|[]]]; [now apply J5 in H|discriminate]).
    + intros. rewrite src_task_snoc, I9. split; [intros [H|H]; [|now apply src_sh in H]|left]; revert H; apply is_task_ext; reflexivity.
    + intros. rewrite shared_field_new. split; [intros [H|H]; [now apply E0 in H|auto]|auto].
    + intros. rewrite local_field_other by discriminate. apply I11.
    + intros. rewrite I12. symmetry. now apply sw_other.
  - (* local *)
    destruct (p_local s) as [|q m] eqn:Ei; [|discriminate]. destruct (no_dups [] fs) as [m|] eqn:Em; [|discriminate]. injection H as <-. apply no_dups_spec in Em as [-> Em]. simpl in *.
    assert (E0 : forall x r, ~ local_field done x r) by (intros x r H; now apply I11 in H).
    constructor; simpl; try exact I1; try exact I2; auto.
    + intros m' k' p' ar' H'. apply (I7 m' k' p' ar'). revert H'. apply is_task_ext; reflexivity.
    + destruct (p_init s) as [[[[? ?] ?] ?]|]; [|intros ? ? ? ? H; apply in_app_iff in H as [H|[H|[]]]; [now apply I8 in H|discriminate]].
      destruct I8 as (J1 & J2 & (lo' & J3 & J4) & J5). repeat split; auto; [exists lo'; split; [apply in_app_iff; auto|auto]| |];
        (apply in_app_iff in H as [H|[H|[]]]; [now apply J5 in H|discriminate]).
    + intros. rewrite src_task_snoc, I9. split; [intros [H|H]; [|now apply src_lo in H]|left]; revert H; apply is_task_ext; reflexivity.
    + intros. rewrite shared_field_other by discriminate. apply I10.
    + intros. rewrite local_field_new. split; [intros [H|H]; [now apply E0 in H|auto]|auto].
    + intros. rewrite I12. symmetry. now apply sw_other.
Qed.

Lemma parse_items_inv items done s s' : pinv done s -> parse_items s items = Some s' -> pinv (done ++ items) s'.
Proof.
  revert done s. induction items as [|i l IH]; simpl; intros done s I H; [injection H as <-; now rewrite app_nil_r|].
  destruct (parse_item s i) as [s1|] eqn:E; [|discriminate]. apply (@parse_item_inv _ _ _ _ I) in E. apply (IH _ _ E) in H. now rewrite <- app_assoc in H.
Qed.
Lemma pinv0 : pinv [] pst0.
Proof.
  constructor; simpl; try (constructor; fail); auto.
  - intros n; simpl; tauto.
  - intros n; simpl; tauto.
  - intros n k p ar H. destruct H as [n ar H|n t H|n t H]; simpl in H; [discriminate|contradiction|contradiction].
  - intros n k p sh lo. split; intros H; exfalso; inversion H; simpl in *; try discriminate; contradiction.
  - intros x r. split; [intros (s & fs & [] & _)|intros []].
  - intros x r. split; [intros (s & fs & [] & _)|intros []].
  - intros n t. split; [intros []|intros (r & [] & _)].
Qed.
Lemma parse_disp_spec acc l d : parse_disp acc l = Some d -> d = acc ++ l /\ (NoDup acc -> NoDup d).
Proof.
  revert acc. induction l as [|x l IH]; simpl; intros acc H; [injection H as <-; rewrite app_nil_r; auto|].
  destruct (mem x acc) eqn:E; [discriminate|]. apply mem_false in E. apply IH in H as [-> H]. rewrite <- app_assoc in *. split; [reflexivity|].
  intros N. apply H. apply NoDup_app_intro; [exact N|repeat constructor; auto|]. intros y Hy [<-|[]]. contradiction.
Qed.
Lemma parse_disp_total acc l : NoDup (acc ++ l) -> parse_disp acc l = Some (acc ++ l).
Proof.
  revert acc. induction l as [|x l IH]; simpl; intros acc H; [now rewrite app_nil_r|].
  destruct (mem x acc) eqn:E.
  - apply mem_in in E. apply NoDup_remove_2 in H. contradict H. apply in_app_iff. auto.
  - rewrite IH by (rewrite <- app_assoc; exact H). now rewrite <- app_assoc.
Qed.

(** What the parser guarantees. *)
Record parsed (disp : list ident) (items : list item) (a : app) : Prop := mkPd {
  pd_wf : app_wf a;
  pd_disp : ap_disp a = disp;
  pd_task : forall n k p sh lo, src_task items n k p sh lo <-> is_task a n k p (mkArgs sh lo);
  pd_shared : forall x r, shared_field items x r <-> In (x, r) (ap_shared a);
  pd_local : forall x t, local_field items x t <-> In (x, t) (ap_local a);
  pd_sw : forall n t, In (n, t) (ap_sw a) <-> exists r, In (ITask n r) items /\ rt_binds r = None /\ t = sw_of r;
  pd_init : exists lo sn ln, In (IInit (fst (ap_init a)) lo sn ln) items /\ snd (ap_init a) = opt_list lo;
  pd_init_only : forall n lo sn ln, In (IInit n lo sn ln) items -> n = fst (ap_init a) /\ opt_list lo = snd (ap_init a)
}.
Lemma parse_parsed disp items a : parse_app disp items = Some a -> parsed disp items a.
Proof.
  unfold parse_app. destruct (parse_disp [] disp) as [d|] eqn:Ed; [|discriminate]. destruct (parse_items pst0 items) as [s|] eqn:Es; [|discriminate].
  destruct (p_sid s) as [sid|] eqn:E1; [|discriminate]. destruct (p_lid s) as [lid|] eqn:E2; [|discriminate]. destruct (p_init s) as [[[[n l] sn] ln]|] eqn:E3; [|discriminate].
  destruct (ieq sid sn && ieq lid ln); [|discriminate]. intros [= <-]. apply parse_disp_spec in Ed as [-> Ed]. simpl in *.
  apply (@parse_items_inv _ _ _ _ pinv0) in Es. simpl in Es. destruct Es as [I1 I2 I3 I4 I5 I6 I7 I8 I9 I10 I11 I12]. unfold st_names in I1. rewrite E3 in *. simpl in I1.
  assert (Ht : forall a n k p ar, ap_idle a = p_idle s -> ap_hw a = p_hw s -> ap_sw a = p_sw s -> is_task a n k p ar <-> is_task (st_app s) n k p ar) by (intros; now apply is_task_ext).
  constructor; simpl; auto.
  - constructor; simpl; auto.
    + apply Ed. constructor.
    + intros m k p ar H. apply Ht in H; auto. apply I7 in H. tauto.
    + apply I8.
    + apply I8.
    + intros m k p ar H. apply Ht in H; auto. apply I7 in H. tauto.
  - intros. rewrite Ht; auto.
  - destruct I8 as (_ & _ & (lo & J & J') & _). eauto.
  - intros. destruct I8 as (_ & _ & _ & J). eapply J. eauto.
Qed.
