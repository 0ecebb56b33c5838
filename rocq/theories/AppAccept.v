(** Proofs: which applications the macro accepts. *)
From Verif Require Import Base AppModel AppSpec AppProofs AppAnalysis AppChecks AppFinal AppAcceptSpec.
Set Implicit Arguments.

(** ** One item *)
Lemma parse_shared_iff o : (exists l, parse_shared o = Some l) <-> NoDup (map fst (opt_list o)).
Proof.
  destruct o as [l|]; simpl; [|split; [constructor|eauto]]. split.
  - intros [m H]. apply no_dups_spec in H as [-> H]. apply H. constructor.
  - intros H. rewrite no_dups_total by exact H. eauto.
Qed.
Lemma parse_local_iff o : (exists l, parse_local o = Some l) <-> locals_ok o.
Proof.
  unfold locals_ok. destruct o as [l|]; simpl; [|split; [split; [constructor|discriminate]|eauto]]. split.
  - intros [m H]. destruct (no_dups [] l) as [m'|] eqn:E; [|discriminate]. apply no_dups_spec in E as [-> E]. simpl in *. split; [apply E; constructor|]. intros [= ->]. discriminate.
  - intros [H N]. rewrite no_dups_total by exact H. simpl. destruct l; [congruence|eauto].
Qed.
Lemma mk_args_iff sh lo : (exists a, mk_args sh lo = Some a) <-> NoDup (map fst (opt_list sh)) /\ locals_ok lo.
Proof.
  rewrite <- parse_shared_iff, <- parse_local_iff. unfold mk_args. destruct (parse_shared sh), (parse_local lo); split.
  all: try (intros [? H]; discriminate H). all: try (intros [[? H] [? H']]; discriminate). all: eauto.
Qed.
Lemma init_args_iff lo : (exists l, init_args lo = Some l) <-> locals_ok lo /\ forall x d, In (x, d) (opt_list lo) -> d = Declared.
Proof.
  rewrite <- parse_local_iff. unfold init_args. destruct (parse_local lo) as [l|] eqn:E; [|split; [intros [? H]; discriminate H|intros [[? H] _]; discriminate H]].
  pose proof (parse_local_spec _ E) as [-> _]. destruct (existsb _ _) eqn:X; split.
  - intros [? H]. discriminate H.
  - intros [_ H]. apply existsb_exists in X as ([x d] & I & Y). apply H in I. subst d. discriminate Y.
  - intros _. split; [eauto|]. intros x d I. destruct d; [|reflexivity]. exfalso. assert (existsb (fun p : ident * tlocal => match snd p with External => true | Declared => false end) (opt_list lo) = true); [|congruence].
    apply existsb_exists. exists (x, External). auto.
  - eauto.
Qed.
Lemma task_args_iff r : (exists t, task_args r = Some t) <->
  NoDup (map fst (opt_list (rt_shared r))) /\ locals_ok (rt_local r) /\ forall p, rt_prio r = Some p -> p <= 255 /\ (rt_binds r <> None -> 1 <= p).
Proof.
  unfold task_args. split.
  - intros [t H]. destruct (match rt_prio r with Some p => 255 <? p | None => false end) eqn:Ep; [discriminate|].
    destruct (mk_args (rt_shared r) (rt_local r)) as [a|] eqn:Ea; [|discriminate].
    destruct (proj1 (mk_args_iff _ _) (ex_intro _ a Ea)) as [H1 H2]. split; [exact H1|]. split; [exact H2|]. intros p E. rewrite E in *. split; [apply Nat.ltb_ge in Ep; exact Ep|].
    intros Hb. destruct (rt_binds r); [|congruence]. destruct (Nat.eqb p 0) eqn:E0; [discriminate|]. apply Nat.eqb_neq in E0. lia.
  - intros (H1 & H2 & H3). destruct (proj2 (mk_args_iff _ _) (conj H1 H2)) as [a Ea]. rewrite Ea.
    replace (match rt_prio r with Some p => 255 <? p | None => false end) with false by (destruct (rt_prio r) as [p|]; [symmetry; apply Nat.ltb_ge; apply (H3 p); reflexivity|reflexivity]).
    destruct (rt_binds r) as [b|]; [|eauto]. destruct (Nat.eqb _ 0) eqn:E0; [|eauto]. apply Nat.eqb_eq in E0. destruct (rt_prio r) as [p|]; [|discriminate]. destruct (H3 p eq_refl) as [_ H]. specialize (H ltac:(discriminate)). lia.
Qed.

(** ** All items *)
Definition known (s : pst) : Prop := forall n, In n (map fst (p_hw s)) \/ In n (map fst (p_sw s)) -> In n (p_seen s).
Definition sid_of (i : item) (o : option ident) : option ident := match i with IShared n _ => Some n | _ => o end.
Definition lid_of (i : item) (o : option ident) : option ident := match i with ILocal n _ => Some n | _ => o end.
Definition init_names (i : item) (o : option (ident * ident)) : option (ident * ident) := match i with IInit _ _ sn ln => Some (sn, ln) | _ => o end.
Definition p_ret (s : pst) : option (ident * ident) := match p_init s with Some (_, _, sn, ln) => Some (sn, ln) | None => None end.
Lemma mem_none n l : (if mem n l then None else @Some pst (pst0)) <> None <-> ~ In n l.
Proof. destruct (mem n l) eqn:E; [apply mem_in in E|apply mem_false in E]; split; congruence || tauto. Qed.
Lemma parse_item_next s i s' : known s -> parse_item s i = Some s' ->
  known s' /\ p_seen s' = fun_name i ++ p_seen s /\ p_bind s' = bound i ++ p_bind s /\
  (p_init s' = None <-> p_init s = None /\ is_init i = false) /\ (p_idle s' = None <-> p_idle s = None /\ is_idle i = false) /\
  (is_shared i = false -> p_shared s' = p_shared s) /\ (is_local i = false -> p_local s' = p_local s) /\
  p_sid s' = sid_of i (p_sid s) /\ p_lid s' = lid_of i (p_lid s) /\ p_ret s' = init_names i (p_ret s).
Proof.
  intros K E. destruct i as [n lo sn ln|n sh lo|n r|n fs|n fs]; simpl in E.
  - destruct (init_args lo); [|discriminate]. destruct (p_init s) eqn:Ei; [discriminate|]. destruct (mem n (p_seen s)); [discriminate|]. injection E as <-. unfold p_ret. simpl.
    repeat split; simpl; auto; try discriminate; try (intros [_ X]; discriminate X); try tauto. intros m Hm. right. apply K. exact Hm.
  - destruct (mk_args sh lo); [|discriminate]. destruct (p_idle s) eqn:Ei; [discriminate|]. destruct (mem n (p_seen s)); [discriminate|]. injection E as <-. unfold p_ret. simpl.
    repeat split; simpl; auto; try discriminate; try (intros [_ X]; discriminate X); try tauto. intros m Hm. right. apply K. exact Hm.
  - destruct (ihas (p_hw s) n || ihas (p_sw s) n)%bool eqn:Eh; [discriminate|]. apply orb_false_iff in Eh as [Eh1 Eh2]. apply ihas_false in Eh1, Eh2.
    destruct (task_args r) as [t|] eqn:Et; [|discriminate]. pose proof (task_args_spec _ Et) as (_ & _ & Ht). destruct t as [t|t].
    + destruct Ht as (b & Hb & Ht & _). destruct (mem (hw_binds t) (p_bind s)); [discriminate|]. destruct (mem n (p_seen s)); [discriminate|]. injection E as <-. unfold p_ret. simpl. rewrite Hb, Ht. simpl.
      repeat split; simpl; auto; try tauto. intros m. simpl. rewrite iinsert_new by auto. rewrite map_app, in_app_iff. simpl. intros [[H|[<-|[]]]|H]; auto.
    + destruct Ht as (Hb & Ht & _). destruct (mem n (p_seen s)); [discriminate|]. injection E as <-. unfold p_ret. simpl. rewrite Hb. simpl.
      repeat split; simpl; auto; try tauto. intros m. simpl. rewrite iinsert_new by auto. rewrite map_app, in_app_iff. simpl. intros [H|[H|[<-|[]]]]; auto.
  - destruct (p_shared s); [|discriminate]. destruct (no_dups [] fs); [|discriminate]. injection E as <-. unfold p_ret. simpl. repeat split; simpl; auto; try tauto; try discriminate.
  - destruct (p_local s); [|discriminate]. destruct (no_dups [] fs); [|discriminate]. injection E as <-. unfold p_ret. simpl. repeat split; simpl; auto; try tauto; try discriminate.
Qed.
Lemma parse_item_iff s i : known s -> (is_shared i = true -> p_shared s = []) -> (is_local i = true -> p_local s = []) ->
  ((exists s', parse_item s i = Some s') <->
   item_ok i /\ (forall n, In n (fun_name i) -> ~ In n (p_seen s)) /\ (forall b, In b (bound i) -> ~ In b (p_bind s)) /\
   (is_init i = true -> p_init s = None) /\ (is_idle i = true -> p_idle s = None)).
Proof.
  intros K Hs Hl. destruct i as [n lo sn ln|n sh lo|n r|n fs|n fs]; simpl in *.
  - rewrite <- init_args_iff. destruct (init_args lo) as [l|]; [|split; [intros [? H]; discriminate H|intros ([? H] & _); discriminate H]].
    destruct (p_init s) eqn:Ei; [split; [intros [? H]; discriminate H|intros (_ & _ & _ & H & _); specialize (H eq_refl); discriminate H]|].
    destruct (mem n (p_seen s)) eqn:E; [apply mem_in in E; split; [intros [? H]; discriminate H|intros (_ & H & _); exfalso; apply (H n); auto]|]. apply mem_false in E.
    split; [|eauto]. intros _. repeat split; eauto; try discriminate. intros m [<-|[]]. exact E.
  - rewrite <- mk_args_iff. destruct (mk_args sh lo) as [l|]; [|split; [intros [? H]; discriminate H|intros ([? H] & _); discriminate H]].
    destruct (p_idle s) eqn:Ei; [split; [intros [? H]; discriminate H|intros (_ & _ & _ & _ & H); specialize (H eq_refl); discriminate H]|].
    destruct (mem n (p_seen s)) eqn:E; [apply mem_in in E; split; [intros [? H]; discriminate H|intros (_ & H & _); exfalso; apply (H n); auto]|]. apply mem_false in E.
    split; [|eauto]. intros _. repeat split; eauto; try discriminate. intros m [<-|[]]. exact E.
  - rewrite <- task_args_iff. destruct (ihas (p_hw s) n || ihas (p_sw s) n)%bool eqn:Eh.
    { split; [intros [? H]; discriminate H|]. intros (_ & H & _). exfalso. apply (H n); [now left|]. apply K. rewrite orb_true_iff, !ihas_in in Eh. exact Eh. }
    destruct (task_args r) as [t|] eqn:Et; [|split; [intros [? H]; discriminate H|intros ([? H] & _); discriminate H]].
    pose proof (task_args_spec _ Et) as (_ & _ & Ht). destruct t as [t|t].
    + destruct Ht as (b & Hb & Ht & _). rewrite Hb. replace (hw_binds t) with b by now rewrite Ht.
      destruct (mem b (p_bind s)) eqn:E1; [apply mem_in in E1; split; [intros [? H]; discriminate H|intros (_ & _ & H & _); exfalso; apply (H b); simpl; auto]|]. apply mem_false in E1.
      destruct (mem n (p_seen s)) eqn:E; [apply mem_in in E; split; [intros [? H]; discriminate H|intros (_ & H & _); exfalso; apply (H n); auto]|]. apply mem_false in E.
      split; [|eauto]. intros _. repeat split; eauto; try discriminate; [intros m [<-|[]]; exact E|intros m [<-|[]]; exact E1].
    + destruct Ht as (Hb & Ht & _). rewrite Hb.
      destruct (mem n (p_seen s)) eqn:E; [apply mem_in in E; split; [intros [? H]; discriminate H|intros (_ & H & _); exfalso; apply (H n); auto]|]. apply mem_false in E.
      split; [|eauto]. intros _. repeat split; eauto; try discriminate; try (intros m [<-|[]]; exact E); try (intros m []; fail).
  - rewrite Hs by reflexivity. split.
    + intros [s' H]. destruct (no_dups [] fs) eqn:E; [|discriminate]. apply no_dups_spec in E as [-> E]. repeat split; try discriminate; try (intros ? []). apply E. constructor.
    + intros (H & _). rewrite no_dups_total by exact H. eauto.
  - rewrite Hl by reflexivity. split.
    + intros [s' H]. destruct (no_dups [] fs) eqn:E; [|discriminate]. apply no_dups_spec in E as [-> E]. repeat split; try discriminate; try (intros ? []). apply E. constructor.
    + intros (H & _). rewrite no_dups_total by exact H. eauto.
Qed.

Definition ok_from (s : pst) (items : list item) : Prop :=
  (forall i, In i items -> item_ok i) /\
  NoDup (flat_map fun_name items) /\ (forall n, In n (flat_map fun_name items) -> ~ In n (p_seen s)) /\
  NoDup (flat_map bound items) /\ (forall b, In b (flat_map bound items) -> ~ In b (p_bind s)) /\
  how_many is_init items <= (match p_init s with None => 1 | Some _ => 0 end) /\
  how_many is_idle items <= (match p_idle s with None => 1 | Some _ => 0 end).
Lemma how_many_cons f i l : how_many f (i :: l) = (if f i then 1 else 0) + how_many f l.
Proof. unfold how_many. simpl. now destruct (f i). Qed.
Lemma fun_name_NoDup i : NoDup (fun_name i).
Proof. destruct i; simpl; repeat constructor; auto. Qed.
Lemma bound_NoDup i : NoDup (bound i).
Proof. destruct i; simpl; repeat constructor; auto. destruct (rt_binds raw); repeat constructor; auto. Qed.
Lemma nodup_flat {T} (f : item -> list T) i l (seen : list T) : NoDup (f i) ->
  (NoDup (flat_map f (i :: l)) /\ (forall n, In n (flat_map f (i :: l)) -> ~ In n seen)) <->
  ((forall n, In n (f i) -> ~ In n seen) /\ NoDup (flat_map f l) /\ (forall n, In n (flat_map f l) -> ~ In n (f i ++ seen))).
Proof.
  intros N. simpl. split.
  - intros [H1 H2]. destruct (NoDup_app_inv _ _ H1) as (_ & H3 & H4). repeat split; auto.
    + intros n I. apply H2. apply in_app_iff. auto.
    + intros n I J. apply in_app_iff in J as [J|J]; [exact (H4 _ J I)|]. apply (H2 n); [apply in_app_iff; auto|exact J].
  - intros (H1 & H2 & H3). split.
    + apply NoDup_app_intro; auto. intros y Hy Hy'. apply (H3 y Hy'). apply in_app_iff. auto.
    + intros n I. apply in_app_iff in I as [I|I]; [now apply H1|]. intros J. apply (H3 n I). apply in_app_iff. auto.
Qed.
Lemma parse_items_iff items s : known s ->
  how_many is_shared items <= (match p_shared s with [] => 1 | _ => 0 end) -> how_many is_local items <= (match p_local s with [] => 1 | _ => 0 end) ->
  ((exists s', parse_items s items = Some s') <-> ok_from s items).
Proof.
  revert s. induction items as [|i l IH]; intros s K Hs Hl.
  - simpl. split; [|eauto]. intros _. repeat split; simpl; try constructor; try (intros ? []); unfold how_many; simpl; try lia.
  - rewrite how_many_cons in Hs, Hl.
    assert (P : (exists s', parse_item s i = Some s') <-> _) by (apply parse_item_iff; [exact K| |]; intros E; rewrite E in *; [destruct (p_shared s)|destruct (p_local s)]; simpl in *; auto; lia).
    cbn [parse_items]. destruct (parse_item s i) as [s1|] eqn:E.
    + assert (P' := proj1 P (ex_intro _ s1 eq_refl)). clear P. destruct P' as (P1 & P2 & P3 & P4 & P5).
      destruct (@parse_item_next s i s1 K E) as (K1 & N1 & N2 & N3 & N4 & N5 & N6 & _).
      rewrite IH.
      * unfold ok_from. rewrite !how_many_cons. rewrite N1, N2.
        pose proof (nodup_flat fun_name i l (p_seen s) (fun_name_NoDup i)) as F1. pose proof (nodup_flat bound i l (p_bind s) (bound_NoDup i)) as F2.
        assert (C1 : how_many is_init l <= (match p_init s1 with None => 1 | Some _ => 0 end) <-> (if is_init i then 1 else 0) + how_many is_init l <= (match p_init s with None => 1 | Some _ => 0 end)).
        { destruct (is_init i) eqn:Ei; [rewrite (P4 eq_refl)|]; destruct (p_init s1); destruct (p_init s) eqn:Es; try lia; exfalso; destruct N3 as [X Y]; try (destruct (X eq_refl); discriminate); (assert (Some p = None) by auto; discriminate). }
        assert (C2 : how_many is_idle l <= (match p_idle s1 with None => 1 | Some _ => 0 end) <-> (if is_idle i then 1 else 0) + how_many is_idle l <= (match p_idle s with None => 1 | Some _ => 0 end)).
        { destruct (is_idle i) eqn:Ei; [rewrite (P5 eq_refl)|]; destruct (p_idle s1); destruct (p_idle s) eqn:Es; try lia; exfalso; destruct N4 as [X Y]; try (destruct (X eq_refl); discriminate); (assert (Some p = None) by auto; discriminate). }
        rewrite C1, C2. assert (C3 : (forall j, In j (i :: l) -> item_ok j) <-> (forall j, In j l -> item_ok j)) by (split; intros X j Hj; [apply X; now right|destruct Hj as [<-|Hj]; auto]). rewrite C3. tauto.
      * exact K1.
      * destruct (is_shared i) eqn:Ei; [|rewrite N5 by reflexivity; destruct (p_shared s); lia]. destruct (p_shared s); destruct (p_shared s1); lia.
      * destruct (is_local i) eqn:Ei; [|rewrite N6 by reflexivity; destruct (p_local s); lia]. destruct (p_local s); destruct (p_local s1); lia.
    + split; [intros [? H]; discriminate H|]. intros (O1 & O2 & O3 & O4 & O5 & O6 & O7). exfalso. destruct (proj2 P) as [s' H]; [|discriminate H]. clear P.
      pose proof (proj1 (nodup_flat fun_name i l (p_seen s) (fun_name_NoDup i)) (conj O2 O3)) as (F1 & _). pose proof (proj1 (nodup_flat bound i l (p_bind s) (bound_NoDup i)) (conj O4 O5)) as (F2 & _).
      rewrite how_many_cons in O6, O7. repeat split; auto; [apply O1; now left| |]; intros X; rewrite X in *; [destruct (p_init s)|destruct (p_idle s)]; auto; lia.
Qed.

(** ** The whole module *)
Section Pick.
Context {T : Type} (g : item -> option T).
Definition pick (items : list item) (o : option T) : option T := fold_left (fun o i => match g i with Some v => Some v | None => o end) items o.
Definition picks (i : item) : bool := match g i with Some _ => true | None => false end.
Lemma pick_none items o : how_many picks items = 0 -> pick items o = o /\ forall i, In i items -> g i = None.
Proof.
  revert o. induction items as [|i l IH]; intros o H; [split; [reflexivity|intros ? []]|]. rewrite how_many_cons in H. unfold picks at 1 in H. destruct (g i) eqn:E; [discriminate|].
  destruct (IH o) as [IH1 IH2]; [exact H|]. split.
  - unfold pick in *. simpl. now rewrite E.
  - intros j [<-|Hj]; auto.
Qed.
Lemma pick_one items o : how_many picks items = 1 -> exists i v, In i items /\ g i = Some v /\ pick items o = Some v /\ forall j w, In j items -> g j = Some w -> w = v.
Proof.
  revert o. induction items as [|i l IH]; intros o H; [discriminate|]. rewrite how_many_cons in H. unfold picks at 1 in H. destruct (g i) as [v|] eqn:E.
  - injection H as H. destruct (pick_none l (Some v) H) as [H1 H2]. exists i, v. split; [now left|]. split; [exact E|]. split; [unfold pick in *; simpl; now rewrite E|].
    intros j w [<-|Hj] Ej; [congruence|]. rewrite (H2 _ Hj) in Ej. discriminate.
  - destruct (IH o H) as (j & v & H1 & H2 & H3 & H4). exists j, v. split; [now right|]. split; [exact H2|]. split; [unfold pick in *; simpl; now rewrite E|].
    intros j' w [<-|Hj] Ej; [congruence|eauto].
Qed.
End Pick.
Definition g_sid (i : item) : option ident := match i with IShared n _ => Some n | _ => None end.
Definition g_lid (i : item) : option ident := match i with ILocal n _ => Some n | _ => None end.
Definition g_ret (i : item) : option (ident * ident) := match i with IInit _ _ sn ln => Some (sn, ln) | _ => None end.
Lemma how_many_ext f f' l : (forall i, f i = f' i) -> how_many f l = how_many f' l.
Proof. intros H. unfold how_many. f_equal. induction l as [|i l IH]; simpl; [reflexivity|]. now rewrite H, IH. Qed.
Lemma parse_items_names items s s' : known s -> parse_items s items = Some s' ->
  p_sid s' = pick g_sid items (p_sid s) /\ p_lid s' = pick g_lid items (p_lid s) /\ p_ret s' = pick g_ret items (p_ret s).
Proof.
  revert s. induction items as [|i l IH]; simpl; intros s K E; [injection E as <-; auto|]. destruct (parse_item s i) as [s1|] eqn:E1; [|discriminate].
  destruct (@parse_item_next s i s1 K E1) as (K1 & _ & _ & _ & _ & _ & _ & N1 & N2 & N3). destruct (IH s1 K1 E) as (I1 & I2 & I3). rewrite I1, I2, I3, N1, N2, N3. unfold pick. simpl.
  destruct i; simpl; auto.
Qed.
Lemma known0 : known pst0.
Proof. intros n [[]|[]]. Qed.
Lemma parse_app_iff disp items : how_many is_shared items = 1 -> how_many is_local items = 1 ->
  ((exists a, parse_app disp items = Some a) <-> NoDup disp /\ module_ok items).
Proof.
  intros Hs Hl. unfold parse_app.
  assert (D : (exists d, parse_disp [] disp = Some d) <-> NoDup disp).
  { split; [intros [d E]; apply parse_disp_spec in E as [-> E]; apply E; constructor|]. intros N. exists disp. apply (parse_disp_total [] disp). exact N. }
  assert (I : (exists s, parse_items pst0 items = Some s) <-> ok_from pst0 items) by (apply parse_items_iff; simpl; [exact known0|lia|lia]).
  rewrite <- (how_many_ext (picks g_sid) is_shared) in Hs by (intros []; reflexivity). rewrite <- (how_many_ext (picks g_lid) is_local) in Hl by (intros []; reflexivity).
  destruct (pick_one g_sid items None Hs) as (i1 & sid & I1 & E1 & Es & U1). destruct (pick_one g_lid items None Hl) as (i2 & lid & I2 & E2 & El & U2).
  destruct (parse_disp [] disp) as [d|]; [|split; [intros [? X]; discriminate X|intros [X _]; apply D in X as [? X]; discriminate X]].
  assert (Nd : NoDup disp) by (apply D; eauto). clear D.
  destruct (parse_items pst0 items) as [s|] eqn:E.
  2:{ split; [intros [? X]; discriminate X|]. intros [_ [M1 M2 M3 M4 M5 M6]]. destruct (proj2 I) as [? X]; [|discriminate X].
      unfold ok_from. simpl. repeat split; auto. lia. }
  assert (O := proj1 I (ex_intro _ s eq_refl)). clear I. destruct O as (O1 & O2 & _ & O4 & _ & O6 & O7). simpl in O6, O7.
  destruct (@parse_items_names items pst0 s known0 E) as (N1 & N2 & N3). simpl in N1, N2, N3. rewrite N1, N2, Es, El. rewrite <- (how_many_ext (picks g_ret) is_init) in O6 by (intros []; reflexivity).
  destruct (p_init s) as [[[[n l] sn] ln]|] eqn:Ei; unfold p_ret in N3; rewrite Ei in N3; simpl in N3.
  - assert (H1 : how_many (picks g_ret) items = 1). { destruct (how_many (picks g_ret) items) as [|k] eqn:Z; [|lia]. destruct (pick_none g_ret items None Z) as [X _]. rewrite X in N3. discriminate. }
    destruct (pick_one g_ret items None H1) as (i3 & v & I3 & E3 & X & U3). assert (v = (sn, ln)) by congruence. subst v. clear X.
    assert (H1' : how_many is_init items = 1) by (rewrite <- H1; apply how_many_ext; intros []; reflexivity).
    assert (Q : (ieq sid sn && ieq lid ln)%bool = true <-> forall n lo sn ln, In (IInit n lo sn ln) items -> (forall s fs, In (IShared s fs) items -> s = sn) /\ (forall s fs, In (ILocal s fs) items -> s = ln)).
    { rewrite andb_true_iff, !ieq_spec. split.
      - intros [-> ->] n' lo' sn' ln' J. assert (Z := U3 _ _ J eq_refl). injection Z as -> ->. split; intros s' fs J'; [apply (U1 _ _ J' eq_refl)|apply (U2 _ _ J' eq_refl)].
      - intros H. destruct i3; try discriminate. injection E3 as -> ->. destruct (H _ _ _ _ I3) as [H2 H3]. destruct i1; try discriminate. injection E1 as ->. destruct i2; try discriminate. injection E2 as ->. split; eauto. }
    destruct (ieq sid sn && ieq lid ln)%bool.
    + split; [|eauto]. intros _. split; [exact Nd|]. constructor; auto. now apply Q.
    + split; [intros [? X]; discriminate X|]. intros [_ M]. exfalso. assert (false = true); [|discriminate]. apply Q. exact (mo_structs M).
  - split; [intros [? X]; discriminate X|]. intros [_ M]. exfalso. assert (H1 : how_many (picks g_ret) items = 1) by (rewrite <- (mo_init M); apply how_many_ext; intros []; reflexivity).
    destruct (pick_one g_ret items None H1) as (? & v & _ & _ & X & _). congruence.
Qed.
