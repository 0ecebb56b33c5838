(** C89: the #[app] macro reports mistakes as errors; when it panics. *)
From Verif Require Import Base AppModel AppSpec AppProofs AppAnalysis AppChecks AppFinal PropertiesApp PanicModel.
Set Implicit Arguments.
Open Scope string_scope.
Open Scope list_scope.
Open Scope nat_scope.

(** ** Specification *)

(** The identifiers the user gives to functions, resources and dispatchers. *)
Inductive names (items : list item) (disp : list ident) : ident -> Prop :=
| N_init n lo sn ln : In (IInit n lo sn ln) items -> names items disp n
| N_task n k p sh lo : src_task items n k p sh lo -> names items disp n
| N_shared n r : shared_field items n r -> names items disp n
| N_local n t : local_field items n t -> names items disp n
| N_decl t n : declares items t n -> names items disp n
| N_disp n : In n disp -> names items disp n.

(** A raw identifier, as in [fn r#match]; and a name without # *)
Definition raw (n : ident) : Prop := exists m, n = String "r" (String "#" m).
Definition plain (n : ident) : Prop := ~ In "#"%char (list_ascii_of_string n).

(** The items every application must have *)
Inductive needed := TheShared | TheLocal | TheInit.
Definition is_needed (k : needed) (i : item) : bool :=
  match k, i with TheShared, IShared _ _ | TheLocal, ILocal _ _ | TheInit, IInit _ _ _ _ => true | _, _ => false end.
Definition without (k : needed) (items : list item) : list item := filter (fun i => negb (is_needed k i)) items.

(** ** Proofs *)

Lemma hash_plain n : plain n <-> has_hash n = false.
Proof.
  unfold plain. induction n as [|c n IH]; simpl; [tauto|]. destruct (Ascii.eqb_spec c "#"%char) as [->|Hc]; simpl.
  - split; [intros H; destruct H; auto | discriminate].
  - rewrite <- IH. split; [intros H K; apply H; auto | intros H [K | K]; auto].
Qed.
Lemma hash_app a b : has_hash (a ++ b)%string = has_hash a || has_hash b.
Proof. induction a as [|c a IH]; simpl; [reflexivity|]. now rewrite IH, orb_assoc. Qed.
Lemma raw_hash n : raw n -> has_hash n = true.
Proof. intros [m ->]. reflexivity. Qed.
Lemma plain_not_raw n : raw n -> ~ plain n.
Proof. intros H K. apply hash_plain in K. apply raw_hash in H. congruence. Qed.

Lemma bind_np {A B} (r : res A) (f : A -> res B) : r <> Panic -> (forall a, r = Done a -> f a <> Panic) -> bind r f <> Panic.
Proof. destruct r; simpl; intros H K; [congruence | discriminate | now apply K]. Qed.
Lemma bind_done {A B} (r : res A) (f : A -> res B) y : bind r f = Done y -> exists a, r = Done a /\ f a = Done y.
Proof. destruct r; simpl; intros H; try discriminate. eauto. Qed.
Lemma each_np {A} (f : A -> res unit) l : (forall x, In x l -> f x <> Panic) -> each f l <> Panic.
Proof. induction l as [|x l IH]; simpl; intros H; [discriminate|]. apply bind_np; [apply H; auto | intros _ _; apply IH; auto]. Qed.
Lemma each_panic {A} (f : A -> res unit) l x : (forall y, In y l -> f y <> Error) -> In x l -> f x = Panic -> each f l = Panic.
Proof.
  induction l as [|y l IH]; simpl; [tauto|]. intros He [-> | Hx] Hp; [now rewrite Hp|].
  specialize (He y (or_introl eq_refl)) as Hy. destruct (f y); simpl; [reflexivity | congruence|]. apply IH; auto.
Qed.
Lemma each_ne {A} (f : A -> res unit) l : (forall x, In x l -> f x <> Error) -> each f l <> Error.
Proof. induction l as [|x l IH]; simpl; intros H; [discriminate|]. specialize (H x (or_introl eq_refl)) as Hx. destruct (f x); simpl; [discriminate | congruence|]. apply IH; auto. Qed.
Lemma bind_ne {A B} (r : res A) (f : A -> res B) : r <> Error -> (forall a, r = Done a -> f a <> Error) -> bind r f <> Error.
Proof. destruct r; simpl; intros H K; [discriminate | congruence | now apply K]. Qed.
Lemma ok_np {A} (r : res A) : r <> Panic -> (do _ <- r; Done tt) <> Panic.
Proof. destruct r; simpl; congruence. Qed.

Lemma expect_np {A} (o : option A) v : o = Some v -> expect o <> Panic. Proof. intros ->. discriminate. Qed.
Lemma expect_ne {A} (o : option A) : expect o <> Error. Proof. destruct o; discriminate. Qed.
Lemma new_np s : has_hash s = false -> ident_new s <> Panic. Proof. unfold ident_new. intros ->. discriminate. Qed.
Lemma new_ne s : ident_new s <> Error. Proof. unfold ident_new. destruct (has_hash s); discriminate. Qed.
Lemma minus_np p : 1 <= p -> minus1 p <> Panic. Proof. unfold minus1. destruct (Nat.eqb_spec p 0); [lia | discriminate]. Qed.
Lemma minus_ne p : minus1 p <> Error. Proof. unfold minus1. destruct (p =? 0); discriminate. Qed.

Lemma digits_plain f n : has_hash (digits f n) = false.
Proof.
  assert (D : forall k, k < 10 -> Ascii.eqb (digit k) "#"%char = false).
  { intros k Hk. do 10 (destruct k as [|k]; [vm_compute; reflexivity|]). lia. }
  revert n. induction f as [|f IH]; intros n; [reflexivity|]. cbn [digits]. destruct (Nat.ltb_spec n 10) as [H|H].
  - cbn [has_hash]. now rewrite D.
  - change (append ?a ?b) with (a ++ b)%string. rewrite hash_app, IH. cbn [has_hash orb]. rewrite D; [reflexivity|]. apply Nat.mod_upper_bound. lia.
Qed.

Lemma find_int ints p : In p (map fst ints) -> exists i, int_of ints p = Some i /\ In i ints.
Proof.
  unfold int_of. induction ints as [|i l IH]; simpl; [tauto|]. intros [H | H].
  - destruct (Nat.eqb_spec (fst i) p); [eauto | congruence].
  - destruct (fst i =? p); [eauto|]. destruct (IH H) as (j & -> & Hj). eauto.
Qed.

(** The channels: every one has tasks, all of its priority *)
Lemma chans_ok (sw0 sw : list (ident * swtask)) m :
  incl sw sw0 -> (forall c, In c m -> snd c <> [] /\ forall n, In n (snd c) -> exists t, In (n, t) sw0 /\ sw_prio t = fst c) ->
  forall c, In c (fold_left (fun m t => chan_insert m (sw_prio (snd t)) (fst t)) sw m) ->
    snd c <> [] /\ forall n, In n (snd c) -> exists t, In (n, t) sw0 /\ sw_prio t = fst c.
Proof.
  revert m. induction sw as [|[n t] sw IH]; simpl; intros m Hi Hm; [exact Hm|]. apply IH; [intros y Hy; apply Hi; now right|].
  intros c Hc. unfold chan_insert in Hc. destruct (existsb _ m).
  - apply in_map_iff in Hc. destruct Hc as (d & Hd & Hin). destruct (Hm _ Hin) as [K1 K2].
    destruct (Nat.eqb_spec (fst d) (sw_prio t)) as [E|E]; subst c; [|auto]. cbn [fst snd]. split.
    + unfold set_insert. destruct (mem n (snd d)); [auto|]. now destruct (snd d).
    + intros y Hy. unfold set_insert in Hy. destruct (mem n (snd d)); [auto|]. apply in_app_iff in Hy. destruct Hy as [Hy | [<- | []]]; [auto|].
      exists t. split; [apply Hi; now left | auto].
  - apply in_app_iff in Hc. destruct Hc as [Hc | [<- | []]]; [auto|]. cbn [fst snd]. split; [discriminate|]. intros y [<- | []].
    exists t. split; [apply Hi; now left | auto].
Qed.

Lemma min_ge l p : 1 <= p -> (forall q, In q l -> 1 <= q) -> 1 <= fold_left Nat.min l p.
Proof. revert p. induction l as [|q l IH]; simpl; intros p Hp Hl; [exact Hp|]. apply IH; [|auto]. specialize (Hl q (or_introl eq_refl)). lia. Qed.

Lemma in_iget_nat (l : list (nat * ident)) p d d' : NoDup (map fst l) -> In (p, d) l -> In (p, d') l -> d = d'.
Proof.
  induction l as [|[q e] l IH]; simpl; [tauto|]. intros N. inversion N as [|? ? N1 N2]; subst. intros [I | I] [J | J]; [congruence | | |auto].
  - injection I as -> ->. exfalso. apply N1. apply in_map_iff. exists (p, d'). auto.
  - injection J as -> ->. exfalso. apply N1. apply in_map_iff. exists (p, d). auto.
Qed.

(** What the checks establish for the code generator. *)
Record ready (a : app) (y : analysis) (ints : list (nat * ident)) : Prop := {
  rd_wf : app_wf a;
  rd_check : forall x, In x (accesses a) -> exists r, iget (ap_shared a) (snd (fst x)) = Some r;
  rd_local : forall x, In x (local_accesses a) -> exists t, iget (ap_local a) x = Some t;
  rd_chan : y_channels y = fold_left (fun m t => chan_insert m (sw_prio (snd t)) (fst t)) (ap_sw a) [];
  rd_ints : map fst ints = nz_prios a }.

Lemma ihas_some {V} (m : list (ident * V)) k : ihas m k = true -> exists v, iget m k = Some v.
Proof. unfold ihas. destruct (iget m k); [eauto | discriminate]. Qed.

Lemma ctx_shared a n sh lo p : In (n, sh, lo, p) (task_list a) -> forall r, In r sh -> exists x, In x (accesses a) /\ snd (fst x) = r.
Proof.
  unfold task_list, accesses. intros H r Hr. simpl in H. destruct H as [H | H]; [injection H as <- <- <- <-; destruct Hr|].
  rewrite !in_app_iff in H. destruct H as [H | [H | H]].
  - destruct (ap_idle a) as [[m ar]|]; [|destruct H]. destruct H as [H | []]. injection H as <- <- <- <-. apply in_map_iff in Hr. destruct Hr as ([r' ac] & <- & Hr).
    exists (0, r', ac). split; [|reflexivity]. apply in_app_iff. left. apply in_map_iff. exists (r', ac). auto.
  - apply in_map_iff in H. destruct H as (t & E & Ht). injection E as <- <- <- <-. apply in_map_iff in Hr. destruct Hr as ([r' ac] & <- & Hr).
    exists (sw_prio (snd t), r', ac). split; [|reflexivity]. rewrite !in_app_iff. right. right. apply in_flat_map. exists t. split; [auto|]. apply in_map_iff. exists (r', ac). auto.
  - apply in_map_iff in H. destruct H as (t & E & Ht). injection E as <- <- <- <-. apply in_map_iff in Hr. destruct Hr as ([r' ac] & <- & Hr).
    exists (hw_prio (snd t), r', ac). split; [|reflexivity]. rewrite !in_app_iff. right. left. apply in_flat_map. exists t. split; [auto|]. apply in_map_iff. exists (r', ac). auto.
Qed.
Lemma ext_in l x : In (x, External) l -> In x (externals l).
Proof. intros H. unfold externals. apply in_map_iff. exists (x, External). split; [reflexivity|]. apply filter_In. auto. Qed.
Lemma ctx_local a n sh lo p : In (n, sh, lo, p) (task_list a) -> forall x, In (x, External) lo -> In x (local_accesses a).
Proof.
  unfold task_list, local_accesses. intros H x Hx. apply ext_in in Hx. rewrite !in_app_iff. simpl in H. destruct H as [H | H]; [injection H as <- <- <- <-; auto|].
  rewrite !in_app_iff in H. destruct H as [H | [H | H]].
  - destruct (ap_idle a) as [[m ar]|]; [|destruct H]. destruct H as [H | []]. injection H as <- <- <- <-. auto.
  - apply in_map_iff in H. destruct H as (t & E & Ht). injection E as <- <- <- <-. right. right. right. apply in_flat_map. eauto.
  - apply in_map_iff in H. destruct H as (t & E & Ht). injection E as <- <- <- <-. right. right. left. apply in_flat_map. eauto.
Qed.
Lemma ctx_decl a n sh lo p : In (n, sh, lo, p) (task_list a) -> forall x, In (x, Declared) lo -> In (n, x) (declared_locals a).
Proof.
  unfold task_list, declared_locals. intros H x Hx.
  assert (D : forall m l, In (x, Declared) l -> In (m, x) (declareds m l)).
  { intros m l Hl. unfold declareds. apply in_map_iff. exists (x, Declared). split; [reflexivity|]. apply filter_In. auto. }
  rewrite !in_app_iff. simpl in H. destruct H as [H | H]; [injection H as <- <- <- <-; auto|].
  rewrite !in_app_iff in H. destruct H as [H | [H | H]].
  - destruct (ap_idle a) as [[m ar]|]; [|destruct H]. destruct H as [H | []]. injection H as <- <- <- <-. auto.
  - apply in_map_iff in H. destruct H as (t & E & Ht). injection E as <- <- <- <-. right. right. right. apply in_flat_map. eauto.
  - apply in_map_iff in H. destruct H as (t & E & Ht). injection E as <- <- <- <-. right. right. left. apply in_flat_map. eauto.
Qed.

(** the names the generator passes to [Ident::new] *)
Definition gen_names (a : app) (ints : list (nat * ident)) : list ident :=
  map (fun c => fst (fst (fst c))) (task_list a) ++ map fst (ap_shared a) ++ map fst (ap_local a) ++ map snd (declared_locals a) ++ map snd ints.

Lemma decl_task a t x : In (t, x) (declared_locals a) -> In t (map (fun c => fst (fst (fst c))) (task_list a)).
Proof.
  unfold declared_locals, task_list. intros H.
  assert (D : forall m l u v, In (u, v) (declareds m l) -> u = m).
  { intros m l u v K. unfold declareds in K. apply in_map_iff in K. destruct K as (z & K & _). congruence. }
  rewrite !map_app, !in_app_iff. rewrite !in_app_iff in H. destruct H as [H | [H | [H | H]]].
  - apply D in H. subst. left. simpl. auto.
  - destruct (ap_idle a) as [[m ar]|]; [|destruct H]. apply D in H. subst. right. left. simpl. auto.
  - apply in_flat_map in H. destruct H as (u & Hu & H). apply D in H. subst. right. right. right. rewrite map_map. apply in_map_iff. exists u. auto.
  - apply in_flat_map in H. destruct H as (u & Hu & H). apply D in H. subst. right. right. left. rewrite map_map. apply in_map_iff. exists u. auto.
Qed.

Lemma wf_hw_nd a : app_wf a -> NoDup (map fst (ap_hw a)) /\ NoDup (map fst (ap_sw a)).
Proof.
  intros W. pose proof (wf_names W) as N. inversion N as [|? ? _ N']; subst. apply NoDup_app_inv in N' as (_ & N' & _). apply NoDup_app_inv in N' as (N1 & N2 & _). auto.
Qed.
Lemma wf_hw_prio a n t : app_wf a -> In (n, t) (ap_hw a) -> 1 <= hw_prio t.
Proof. intros W H. pose proof (T_hw a n t H) as T. destruct (wf_prio W T) as [_ K]. now apply (K (hw_binds t)). Qed.

Ltac np := repeat (apply ok_np || (apply bind_np; [|intros])).
Ltac hash := unfold internal_task, mark_internal; apply new_np; rewrite ?hash_app; cbn [has_hash]; rewrite ?orb_false_r; cbn [orb].

Lemma sw_in_list a n t : In (n, t) (ap_sw a) -> In n (map (fun c => fst (fst (fst c))) (task_list a)).
Proof. intros H. unfold task_list. rewrite !map_app, !in_app_iff. right. right. left. rewrite map_map. apply in_map_iff. exists (n, t). auto. Qed.

Lemma codegen_np a y ints : ready a y ints -> (forall n, In n (gen_names a ints) -> has_hash n = false) -> codegen_res a y ints <> Panic.
Proof.
  intros R Hn. pose proof (rd_wf R) as W. destruct (wf_hw_nd W) as [Nh Ns].
  assert (Ht : forall n, In n (map (fun c => fst (fst (fst c))) (task_list a)) -> has_hash n = false) by (intros; apply Hn; unfold gen_names; rewrite !in_app_iff; auto).
  assert (Hd : forall n x, In (n, x) (declared_locals a) -> has_hash n = false /\ has_hash x = false).
  { intros n x K. split; [apply Ht; now apply decl_task in K|]. apply Hn. unfold gen_names. rewrite !in_app_iff. do 3 right. left. apply in_map_iff. exists (n, x). auto. }
  assert (Hi : forall p t n, In (n, t) (ap_sw a) -> sw_prio t = p -> 0 < p -> exists i, int_of ints p = Some i /\ In i ints).
  { intros p t n K E Hp. apply find_int. rewrite (rd_ints R). apply nz_prios_in. split; [auto|]. exists n, t. auto. }
  unfold codegen_res. apply bind_np; [|intros _ _]. { apply each_np. intros [[[n sh] lo] p] Hc. unfold ctx_res. np.
    - hash. apply Ht. apply in_map_iff. exists (n, sh, lo, p). auto.
    - apply each_np. intros r Hr. np. destruct (@ctx_shared _ _ _ _ _ Hc _ Hr) as (x & Hx & <-). destruct (@rd_check _ _ _ R _ Hx) as [v E]. eapply expect_np, E.
    - apply each_np. intros [x k] Hx. cbn [fst snd]. destruct k; np.
      + destruct (@rd_local _ _ _ R _ (@ctx_local _ _ _ _ _ Hc _ Hx)) as [v E]. eapply expect_np, E.
      + destruct (Hd _ _ (@ctx_decl _ _ _ _ _ Hc _ Hx)) as [K1 K2]. hash. now rewrite K1, K2. }
  apply bind_np; [|intros _ _]. { unfold shared_res. np.
    - apply each_np. intros [r v] Hr. cbn [fst]. assert (K : has_hash r = false). { apply Hn. unfold gen_names. rewrite !in_app_iff. right. left. apply in_map_iff. exists (r, v). auto. }
      np; hash; now rewrite ?K.
    - apply each_np. intros i Hin. np. apply minus_np. assert (K : In (fst i) (nz_prios a)) by (rewrite <- (rd_ints R); now apply in_map). apply nz_prios_in in K. lia.
    - apply each_np. intros [n t] Hin. cbn [snd]. destruct (is_exception (hw_binds t)); [discriminate|]. np. apply minus_np. now apply (@wf_hw_prio _ _ _ W Hin). }
  apply bind_np; [|intros _ _]. { unfold local_res. np.
    - apply each_np. intros [r v] Hr. cbn [fst]. np. hash. apply Hn. unfold gen_names. rewrite !in_app_iff. right. right. left. apply in_map_iff. exists (r, v). auto.
    - apply each_np. intros [n x] Hx. cbn [fst snd]. np. destruct (Hd _ _ Hx) as [K1 K2]. hash. now rewrite K1, K2. }
  apply bind_np; [|intros _ _]. { apply each_np. intros [n t] Hin. np. cbn [fst]. eapply expect_np. apply in_iget; eauto. }
  apply bind_np; [|intros _ _]. { apply each_np. intros [n t] Hin. cbn [fst]. unfold sw_res. rewrite (@in_iget _ _ _ _ Ns Hin). cbn [expect bind].
    pose proof (Ht _ (@sw_in_list _ _ _ Hin)) as Kn. np; try (hash; now rewrite Kn).
    destruct (Nat.ltb_spec 0 (sw_prio t)) as [Hp|]; [|discriminate]. np. destruct (Hi _ _ _ Hin eq_refl Hp) as (i & E & _). eapply expect_np, E. }
  apply each_np. intros c Hc. rewrite (rd_chan R) in Hc.
  pose proof (@chans_ok (ap_sw a) (ap_sw a) [] (fun y Hy => Hy) (fun c' (Hc' : In c' []) => False_ind _ Hc') _ Hc) as [K1 K2].
  unfold disp_res. apply bind_np; [|intros _ _].
  - destruct (Nat.ltb_spec 0 (fst c)) as [Hp|]; [|discriminate].
    destruct (snd c) as [|n0 l] eqn:El; [congruence|]. destruct (K2 n0 (or_introl eq_refl)) as (t & Hin & Ep).
    destruct (Hi _ _ _ Hin Ep Hp) as (i & E & Hii). rewrite E. cbn [expect bind]. np. apply new_np. apply Hn. unfold gen_names. rewrite !in_app_iff. do 4 right. now apply in_map.
  - apply each_np. intros n Hin. destruct (K2 _ Hin) as (t & Hit & _). rewrite (@in_iget _ _ _ _ Ns Hit). cbn [expect bind]. np. hash.
    now rewrite (Ht _ (@sw_in_list _ _ _ Hit)).
Qed.

Lemma codegen_ne a y ints : codegen_res a y ints <> Error.
Proof.
  unfold codegen_res.
  repeat match goal with
    | c : (ident * list ident * list (ident * tlocal) * nat)%type |- _ => destruct c as [[[? ?] ?] ?]
    | |- bind _ _ <> Error => apply bind_ne; [|intros]
    | |- expect _ <> Error => apply expect_ne
    | |- ident_new _ <> Error => apply new_ne
    | |- internal_task _ _ <> Error => apply new_ne
    | |- mark_internal _ <> Error => apply new_ne
    | |- minus1 _ <> Error => apply minus_ne
    | |- Done _ <> Error => discriminate
    | |- each _ _ <> Error => apply each_ne; intros
    | |- (if ?c then _ else _) <> Error => destruct c
    | |- context [match snd ?c with External => _ | Declared => _ end] => destruct (snd c)
    | |- shared_res _ _ <> Error => unfold shared_res
    | |- local_res _ <> Error => unfold local_res
    | |- ctx_res _ _ <> Error => unfold ctx_res
    | |- sw_res _ _ _ <> Error => unfold sw_res
    | |- disp_res _ _ _ <> Error => unfold disp_res
    end.
Qed.

Lemma each_done {A} (f : A -> res unit) l u : each f l = Done u -> forall x, In x l -> exists v, f x = Done v.
Proof.
  induction l as [|y l IH]; simpl; intros H x Hx; [destruct Hx|]. apply bind_done in H. destruct H as (v & H1 & H2).
  destruct Hx as [-> | Hx]; [eauto | now apply IH].
Qed.
Lemma new_done s v : ident_new s = Done v -> has_hash s = false.
Proof. unfold ident_new. destruct (has_hash s); [discriminate | auto]. Qed.

Lemma codegen_done a y ints u : ready a y ints -> codegen_res a y ints = Done u -> forall n, In n (gen_names a ints) -> has_hash n = false.
Proof.
  intros R H n Hn. unfold codegen_res in H.
  apply bind_done in H as (u1 & H1 & H). apply bind_done in H as (u2 & H2 & H). apply bind_done in H as (u3 & H3 & H).
  apply bind_done in H as (u4 & H4 & H). apply bind_done in H as (u5 & H5 & H6).
  unfold gen_names in Hn. rewrite !in_app_iff in Hn. destruct Hn as [Hn | [Hn | [Hn | [Hn | Hn]]]].
  - apply in_map_iff in Hn. destruct Hn as ([[[m sh] lo] p] & <- & Hc). destruct (each_done _ _ H1 _ Hc) as [v Hv]. unfold ctx_res in Hv.
    apply bind_done in Hv as (w & Hw & _). apply new_done in Hw. rewrite !hash_app in Hw. simpl in Hw. cbn [fst]. now destruct (has_hash m).
  - apply in_map_iff in Hn. destruct Hn as (r & <- & Hr). unfold shared_res in H2. apply bind_done in H2 as (w & Hw & _).
    destruct (each_done _ _ Hw _ Hr) as [v Hv]. apply bind_done in Hv as (z & Hz & _). apply new_done in Hz. rewrite !hash_app in Hz. exact Hz.
  - apply in_map_iff in Hn. destruct Hn as (r & <- & Hr). unfold local_res in H3. apply bind_done in H3 as (w & Hw & _).
    destruct (each_done _ _ Hw _ Hr) as [v Hv]. apply bind_done in Hv as (z & Hz & _). apply new_done in Hz. rewrite !hash_app in Hz. exact Hz.
  - apply in_map_iff in Hn. destruct Hn as (d & <- & Hd). unfold local_res in H3. apply bind_done in H3 as (w & _ & Hw).
    destruct (each_done _ _ Hw _ Hd) as [v Hv]. apply bind_done in Hv as (z & Hz & _). apply new_done in Hz. rewrite !hash_app in Hz. simpl in Hz.
    apply orb_false_iff in Hz. tauto.
  - apply in_map_iff in Hn. destruct Hn as ([p d] & <- & Hi). cbn [snd].
    assert (Hp : In p (nz_prios a)) by (rewrite <- (rd_ints R); now apply (in_map fst) in Hi). apply nz_prios_in in Hp. destruct Hp as (Hp & m & t & Hmt & Et).
    assert (Hc : In m (chan_of (y_channels y) p)). { rewrite (rd_chan R), chans_in. right. exists t. auto. }
    unfold chan_of in Hc. destruct (find (fun c => fst c =? p) (y_channels y)) as [c|] eqn:Ef; [|destruct Hc].
    apply find_some in Ef. destruct Ef as [Hin Ec]. apply Nat.eqb_eq in Ec. destruct (each_done _ _ H6 _ Hin) as [v Hv].
    unfold disp_res in Hv. rewrite Ec in Hv. apply bind_done in Hv as (w & Hw & _). destruct (Nat.ltb_spec 0 p); [|lia].
    apply bind_done in Hw as (i & Hi' & Hw). apply bind_done in Hw as (z & Hz & _). apply new_done in Hz.
    assert (i = (p, d)); [|now subst].
    { assert (N : NoDup (map fst ints)) by (rewrite (rd_ints R); apply nz_prios_NoDup). destruct (int_of ints p) as [i'|] eqn:Ei; [|discriminate]. injection Hi' as ->.
      unfold int_of in Ei. apply find_some in Ei. destruct Ei as [Hii Ei]. apply Nat.eqb_eq in Ei. destruct i as [p' d']. cbn [fst] in Ei. subst p'.
      f_equal. exact (@in_iget_nat _ _ _ _ N Hii Hi). }
Qed.

(** *** Parsing *)
Lemma parse_done disp items a : parse_res disp items = Done a <-> parse_app disp items = Some a.
Proof.
  unfold parse_res, parse_app. destruct (parse_disp [] disp) as [d|]; [|split; discriminate]. destruct (parse_items pst0 items) as [s|]; [|split; discriminate].
  destruct (p_sid s); simpl; [|split; discriminate]. destruct (p_lid s); simpl; [|split; discriminate]. destruct (p_init s) as [[[[n l] sn] ln]|]; simpl; [|split; discriminate].
  destruct (_ && _); split; intros H; congruence.
Qed.

Definition missing (k : needed) (s : pst) : Prop :=
  match k with TheShared => p_sid s = None | TheLocal => p_lid s = None | TheInit => p_init s = None end.
Lemma item_missing s i s' k : parse_item s i = Some s' -> (missing k s' <-> missing k s /\ is_needed k i = false).
Proof.
  destruct i; simpl; intros H;
    repeat match type of H with
    | match ?x with _ => _ end = _ => destruct x eqn:?; try discriminate
    | (if ?x then _ else _) = _ => destruct x eqn:?; try discriminate
    end; injection H as <-; destruct k; simpl; intuition congruence.
Qed.
Lemma items_missing l s s' k : parse_items s l = Some s' -> (missing k s' <-> missing k s /\ forall i, In i l -> is_needed k i = false).
Proof.
  revert s. induction l as [|i l IH]; simpl; intros s H; [injection H as ->; split; [intros M; split; [exact M | intros ? []] | tauto]|].
  destruct (parse_item s i) as [s1|] eqn:E; [|discriminate]. rewrite (IH _ H), (item_missing _ _ k E). split.
  - intros [[H1 H2] H3]. split; [auto|]. intros j [<- | Hj]; auto.
  - intros [H1 H2]. auto.
Qed.

Lemma parse_np disp items : (forall k, exists i, In i items /\ is_needed k i = true) -> parse_res disp items <> Panic.
Proof.
  intros H. unfold parse_res. destruct (parse_disp [] disp) as [d|]; [|discriminate]. destruct (parse_items pst0 items) as [s|] eqn:E; [|discriminate].
  assert (M : forall k, ~ missing k s). { intros k K. destruct (H k) as (i & Hi & Ei). apply (items_missing _ _ k E) in K. destruct K as [_ K]. specialize (K _ Hi). congruence. }
  pose proof (M TheShared) as M1. pose proof (M TheLocal) as M2. pose proof (M TheInit) as M3. simpl in M1, M2, M3.
  destruct (p_sid s); [|congruence]. destruct (p_lid s); [|congruence]. destruct (p_init s) as [[[[n l] sn] ln]|]; [|congruence]. simpl. destruct (_ && _); discriminate.
Qed.

(** *** Changing the dispatchers only *)
Lemma is_task_disp a d n k p ar : is_task (with_disp a d) n k p ar <-> is_task a n k p ar.
Proof. split; intros T; destruct T as [n ar T|n t T|n t T]; (apply T_idle || apply T_hw || apply T_sw); exact T. Qed.
Lemma wf_with_disp a d : app_wf a -> NoDup d -> app_wf (with_disp a d).
Proof.
  intros W N. constructor; simpl; try apply W; auto.
  - intros n k p ar T. apply is_task_disp in T. exact (wf_args W T).
  - intros n k p ar T. apply is_task_disp in T. exact (wf_prio W T).
Qed.
Lemma pre_with b a a' : app_wf a -> preprocess b a = Some a' -> a' = with_disp a (ap_disp a') /\ NoDup (ap_disp a') /\
  forall d, In d (ap_disp a') -> In d (ap_disp a) \/ has_hash d = false.
Proof.
  intros W E. unfold preprocess in E. destruct b; try (injection E as <-; split; [now destruct a | split; [exact (wf_disp W) | auto]]).
  destruct (ap_disp a); [|discriminate]. injection E as <-. split; [reflexivity|]. cbn [ap_disp].
  assert (G : forall l s, NoDup s -> NoDup (fold_left (fun l i => set_insert l (slic_disp i)) l s)) by (induction l as [|i l IH]; intros s N; simpl; auto using set_insert_NoDup).
  split; [apply G; constructor|].
  assert (G2 : forall l s, (forall d, In d s -> has_hash d = false) -> forall d, In d (fold_left (fun l i => set_insert l (slic_disp i)) l s) -> has_hash d = false).
  { induction l as [|i l IH]; intros s Hs; simpl; [exact Hs|]. apply IH. intros d Hd. unfold set_insert in Hd. destruct (mem _ s); [auto|].
    apply in_app_iff in Hd. destruct Hd as [Hd | [<- | []]]; [auto|]. unfold slic_disp. change (append ?u ?v) with (u ++ v)%string. rewrite hash_app, digits_plain. reflexivity. }
  intros d Hd. right. revert d Hd. apply G2. intros ? [].
Qed.

(** *** The checks *)
Lemma analyze_chan a y : analyze a = Some y -> y_channels y = fold_left (fun m t => chan_insert m (sw_prio (snd t)) (fst t)) (ap_sw a) [].
Proof. unfold analyze. destruct (_ || _); [discriminate|]. destruct (loc_loop a _). intros [= <-]. reflexivity. Qed.
Lemma analyze_np a : syntax_check a = true -> analyze_res a <> Panic.
Proof.
  intros S. unfold analyze_res. apply bind_np; [unfold require; destruct (negb _); discriminate|]. intros _ _. apply bind_np.
  - apply each_np. intros x Hx. apply ok_np. unfold syntax_check in S. rewrite !andb_true_iff in S. destruct S as [[[S _] _] _].
    rewrite forallb_forall in S. specialize (S _ Hx). apply ihas_some in S. destruct S as [v S]. eapply expect_np, S.
  - intros _ _. destruct (analyze a) as [y|] eqn:E; [|discriminate]. apply bind_np; [|discriminate].
    assert (A : forallb (fun c : nat * list ident => match snd c with [] => false | _ => true end) (y_channels y) = true).
    { apply forallb_forall. intros c Hc. rewrite (@analyze_chan _ _ E) in Hc.
      pose proof (@chans_ok (ap_sw a) (ap_sw a) [] (fun y Hy => Hy) (fun c' (Hc' : In c' []) => False_ind _ Hc') _ Hc) as [K1 _]. now destruct (snd c). }
    unfold assert. rewrite A. discriminate.
Qed.
Lemma analyze_done a y : analyze_res a = Done y -> analyze a = Some y.
Proof.
  intros H. apply bind_done in H as (u & _ & H). apply bind_done in H as (u' & _ & H). destruct (analyze a) as [z|]; [|discriminate].
  apply bind_done in H as (u'' & _ & H). congruence.
Qed.
Lemma nz_sw a : nz_prios a <> [] -> ap_sw a <> [].
Proof. intros H E. apply H. unfold nz_prios, sw_prios. now rewrite E. Qed.
Lemma last_some (l : list (ident * swtask)) : l <> [] -> exists v, last (map (fun t => Some (fst t)) l) None = Some v.
Proof. induction l as [|t l IH]; [congruence|]. intros _. destruct l as [|t' l]; [simpl; eauto|]. apply IH. discriminate. Qed.
Lemma arch_np b hart a : arch_res b hart a <> Panic.
Proof.
  unfold arch_res. apply bind_np; [unfold require; destruct b; try (match goal with |- (if ?c then _ else _) <> _ => destruct c end); discriminate|]. intros _ _.
  apply bind_np; [|intros _ _; unfold require; destruct b; try (match goal with |- (if ?c then _ else _) <> _ => destruct c end); discriminate].
  destruct (enough a) eqn:E; [discriminate|]. apply bind_np; [|discriminate]. unfold enough in E. apply Nat.leb_gt in E.
  destruct (@last_some (ap_sw a)) as [v Ev]; [|eapply expect_np, Ev]. apply nz_sw. intros K. rewrite K in E. simpl in E. lia.
Qed.
Lemma arch_done b hart a u : arch_res b hart a = Done u -> arch_check b a = true /\ enough a = true.
Proof.
  intros H. apply bind_done in H as (u1 & H1 & H). apply bind_done in H as (u2 & H2 & H3).
  assert (E : enough a = true). { destruct (enough a); [reflexivity|]. apply bind_done in H2 as (v & _ & H2). discriminate. }
  split; [|exact E]. unfold arch_check, require in *. rewrite E. destruct b.
  - destruct (negb _); [|discriminate]. destruct (forallb _ _); [reflexivity | discriminate].
  - destruct (forallb _ _); [reflexivity | discriminate].
  - destruct (forallb _ _); [reflexivity | discriminate].
  - reflexivity.
Qed.
Lemma arch_ok b a : arch_check b a = true -> exists u, arch_res b true a = Done u.
Proof.
  unfold arch_check, arch_res. intros H. destruct b; rewrite ?andb_true_iff in H.
  - destruct H as [[H1 H2] H3]. rewrite H1, H2. cbn [require bind]. rewrite H3. eexists; reflexivity.
  - destruct H as [H1 H2]. rewrite H1, H2. eexists; reflexivity.
  - destruct H as [H1 H2]. rewrite H1, H2. eexists; reflexivity.
  - rewrite H. eexists; reflexivity.
Qed.
Lemma assign_np a : app_wf a -> enough a = true -> assign_res a <> Panic.
Proof.
  intros W E. unfold assign_res. unfold enough in E. rewrite E. cbn [assert bind]. apply Nat.leb_le in E. destruct (interrupts_total _ E) as [l ->]. cbn [expect bind].
  apply bind_np; [|discriminate]. assert (K : forall q, In q (map (fun t => hw_prio (snd t)) (ap_hw a)) -> 1 <= q).
  { intros q Hq. apply in_map_iff in Hq. destruct Hq as ([n t] & <- & Ht). exact (@wf_hw_prio _ _ _ W Ht). }
  destruct (map _ (ap_hw a)) as [|p l']; [discriminate|]. apply minus_np. apply min_ge; [apply K; now left | intros q Hq; apply K; now right].
Qed.
Lemma assign_done a ints : assign_res a = Done ints -> interrupts a = Some ints.
Proof.
  intros H. apply bind_done in H as (u & _ & H). apply bind_done in H as (i & Hi & H). apply bind_done in H as (v & _ & H). injection H as <-.
  destruct (interrupts a); [now injection Hi as -> | discriminate].
Qed.
Lemma assign_ne a : assign_res a <> Error.
Proof.
  unfold assign_res, assert. destruct (_ <=? _); simpl; [|discriminate]. destruct (interrupts a); simpl; [|discriminate].
  destruct (map _ (ap_hw a)); simpl; [discriminate|]. unfold minus1. destruct (_ =? 0); simpl; discriminate.
Qed.

Lemma ready_of b a a' y ints : app_wf a -> syntax_check a = true -> analyze a = Some y -> preprocess b a = Some a' -> interrupts a' = Some ints -> ready a' y ints.
Proof.
  intros W S A E I. destruct (pre_with _ W E) as (Ea & N & _). destruct (@interrupts_some _ _ N I) as (Ei & _ & _).
  unfold syntax_check in S. rewrite !andb_true_iff in S. destruct S as [[[S1 S2] _] _]. rewrite forallb_forall in S1, S2.
  remember (ap_disp a') as d eqn:Ed. clear Ed. subst a'. constructor; auto.
  - now apply wf_with_disp.
  - intros x Hx. apply ihas_some. apply (S1 x Hx).
  - intros x Hx. apply ihas_some. apply (S2 x Hx).
  - apply (@analyze_chan _ _ A).
Qed.

Lemma in_declareds m l t x : In (t, x) (declareds m l) <-> t = m /\ In (x, Declared) l.
Proof.
  unfold declareds. rewrite in_map_iff. split.
  - intros ([y k] & E & H). apply filter_In in H. destruct H as [H K]. injection E as <- <-. destruct k; [discriminate | auto].
  - intros [-> H]. exists (x, Declared). split; [reflexivity|]. apply filter_In. auto.
Qed.
Lemma decl_iff disp items a t x : parsed disp items a -> (In (t, x) (declared_locals a) <-> declares items t x).
Proof.
  intros P. unfold declared_locals, declares. rewrite !in_app_iff. split.
  - intros [H | [H | [H | H]]].
    + apply in_declareds in H. destruct H as [-> H]. right. destruct (pd_init P) as (lo & sn & ln & Hi & E). exists lo, sn, ln. split; [exact Hi | congruence].
    + destruct (ap_idle a) as [[m ar]|] eqn:Ei; [|destruct H]. apply in_declareds in H. destruct H as [-> H]. left. exists KIdle, 0, (a_shared ar), (a_local ar).
      split; [|exact H]. apply (pd_task P). destruct ar. now apply T_idle.
    + apply in_flat_map in H. destruct H as ([m u] & Hu & H). apply in_declareds in H. destruct H as [-> H]. left. exists (KHard (hw_binds u)), (hw_prio u), (a_shared (hw_args u)), (a_local (hw_args u)).
      split; [|exact H]. apply (pd_task P). replace (mkArgs _ _) with (hw_args u) by (now destruct (hw_args u)). now apply T_hw.
    + apply in_flat_map in H. destruct H as ([m u] & Hu & H). apply in_declareds in H. destruct H as [-> H]. left. exists KSoft, (sw_prio u), (a_shared (sw_args u)), (a_local (sw_args u)).
      split; [|exact H]. apply (pd_task P). replace (mkArgs _ _) with (sw_args u) by (now destruct (sw_args u)). now apply T_sw.
  - intros [(k & p & sh & lo & T & H) | (lo & ss & ls & Hi & H)].
    + apply (pd_task P) in T. inversion T as [n' ar G E1|n' u G E1|n' u G E1]; subst.
      * right. left. rewrite G. cbn [a_local]. now apply in_declareds.
      * right. right. left. apply in_flat_map. exists (t, u). split; [auto|]. apply in_declareds. cbn [fst snd]. split; [reflexivity|]. match goal with E : hw_args u = _ |- _ => now rewrite E end.
      * right. right. right. apply in_flat_map. exists (t, u). split; [auto|]. apply in_declareds. cbn [fst snd]. split; [reflexivity|]. match goal with E : sw_args u = _ |- _ => now rewrite E end.
    + left. destruct (pd_init_only P _ _ _ _ Hi) as [-> E]. apply in_declareds. split; [reflexivity | congruence].
Qed.

(** the generator's names are the user's *)
Lemma gen_names_src disp items a d ints n : parsed disp items a -> In n (gen_names (with_disp a d) ints) -> (names items [] n \/ In n (map snd ints)).
Proof.
  intros P H. unfold gen_names in H. rewrite !in_app_iff in H. destruct H as [H | [H | [H | [H | H]]]]; [left | left | left | left | now right].
  - apply in_map_iff in H. destruct H as ([[[m sh] lo] p] & <- & H). cbn [fst]. change (task_list (with_disp a d)) with (task_list a) in H. unfold task_list in H.
    simpl in H. destruct H as [H | H]. { injection H as <- <- <- <-. destruct (pd_init P) as (lo & sn & ln & Hi & _). eapply N_init; exact Hi. }
    rewrite !in_app_iff in H. destruct H as [H | [H | H]].
    + destruct (ap_idle a) as [[m' ar]|] eqn:Ei; [|destruct H]. destruct H as [H | []]. injection H as <- <- <- <-.
      assert (T : is_task a m' KIdle 0 (mkArgs (a_shared ar) (a_local ar))) by (destruct ar; now apply T_idle). apply (pd_task P) in T. eapply N_task; exact T.
    + apply in_map_iff in H. destruct H as ([m' t] & E & Ht). injection E as <- <- <- <-.
      assert (T : is_task a m' KSoft (sw_prio t) (mkArgs (a_shared (sw_args t)) (a_local (sw_args t)))) by (replace (mkArgs _ _) with (sw_args t) by (now destruct (sw_args t)); now apply T_sw).
      apply (pd_task P) in T. eapply N_task; exact T.
    + apply in_map_iff in H. destruct H as ([m' t] & E & Ht). injection E as <- <- <- <-.
      assert (T : is_task a m' (KHard (hw_binds t)) (hw_prio t) (mkArgs (a_shared (hw_args t)) (a_local (hw_args t)))) by (replace (mkArgs _ _) with (hw_args t) by (now destruct (hw_args t)); now apply T_hw).
      apply (pd_task P) in T. eapply N_task; exact T.
  - apply in_map_iff in H. destruct H as ([x r] & <- & H). apply (pd_shared P) in H. eapply N_shared; exact H.
  - apply in_map_iff in H. destruct H as ([x r] & <- & H). apply (pd_local P) in H. eapply N_local; exact H.
  - apply in_map_iff in H. destruct H as ([t x] & <- & H). cbn [snd]. apply N_decl with t. change (declared_locals (with_disp a d)) with (declared_locals a) in H.
    now apply (decl_iff t x P).
Qed.

Lemma src_gen_names disp items a d ints n : parsed disp items a -> names items (map snd ints) n -> In n (gen_names (with_disp a d) ints).
Proof.
  intros P H. unfold gen_names. rewrite !in_app_iff. change (task_list (with_disp a d)) with (task_list a). change (declared_locals (with_disp a d)) with (declared_locals a).
  destruct H as [n lo sn ln H | n k p sh lo H | n r H | n t H | t n H | n H].
  - left. destruct (pd_init_only P _ _ _ _ H) as [-> _]. unfold task_list. simpl. auto.
  - left. apply (pd_task P) in H. unfold task_list. rewrite !map_app, !in_app_iff. inversion H as [n' ar G|n' u G|n' u G]; subst.
    + right. left. rewrite G. simpl. auto.
    + right. right. right. rewrite map_map. apply in_map_iff. exists (n, u). auto.
    + right. right. left. rewrite map_map. apply in_map_iff. exists (n, u). auto.
  - right. left. apply (pd_shared P) in H. apply in_map_iff. exists (n, r). auto.
  - right. right. left. apply (pd_local P) in H. apply in_map_iff. exists (n, t). auto.
  - do 3 right. left. apply (decl_iff t n P) in H. apply in_map_iff. exists (t, n). auto.
  - do 4 right. exact H.
Qed.

(** ** Theorems *)

(** C89. An application with its #[shared], #[local] and #[init] items and without raw identifiers never makes the macro panic,
    whatever else is wrong with it. *)
Theorem C89_no_panic_partial :
  forall b hart disp items,
  (forall k, exists i, In i items /\ is_needed k i = true) ->
  (forall n, names items disp n -> plain n) ->
  macro b hart disp items <> Panic.
Proof.
  intros b hart disp items Hk Hn. unfold macro. apply bind_np; [now apply parse_np|]. intros a Ha. apply parse_done in Ha. pose proof (parse_parsed _ _ Ha) as P. pose proof (pd_wf P) as W.
  apply bind_np; [unfold require; destruct (syntax_check a); discriminate|]. intros u Hs.
  assert (S : syntax_check a = true) by (unfold require in Hs; destruct (syntax_check a); [reflexivity | discriminate]).
  apply bind_np; [now apply analyze_np|]. intros y Hy. apply analyze_done in Hy.
  apply bind_np; [destruct (preprocess b a); discriminate|]. intros a' Ha'. destruct (preprocess b a) as [a2|] eqn:Ep; [injection Ha' as -> | discriminate].
  apply bind_np; [apply arch_np|]. intros u' Hu'. apply arch_done in Hu'. destruct Hu' as [_ En].
  destruct (pre_with _ W Ep) as (Ea & N & Hd).
  assert (W' : app_wf a') by (rewrite Ea; now apply wf_with_disp).
  apply bind_np; [now apply assign_np|]. intros ints Hi. apply assign_done in Hi.
  apply bind_np; [|discriminate]. apply codegen_np; [exact (@ready_of b a a' y ints W S Hy Ep Hi)|].
  intros n Hin. rewrite Ea in Hin. apply (@gen_names_src _ _ _ _ _ _ P) in Hin. destruct Hin as [Hin | Hin].
  - apply hash_plain. apply Hn. clear -Hin. destruct Hin as [n lo sn ln H | n k p sh lo H | n r H | n t H | t n H | n H]; [eapply N_init | eapply N_task | eapply N_shared | eapply N_local | eapply N_decl | destruct H]; exact H.
  - destruct (@interrupts_some _ _ N Hi) as (_ & _ & K). destruct (Hd _ (K _ Hin)) as [Hin' | Hh]; [|exact Hh]. rewrite (pd_disp P) in Hin'. apply hash_plain, Hn. now apply N_disp.
Qed.

(** What the macro produces is what [expand] says (the assertions on priorities are left to the compiler). *)
Theorem C89_same_result :
  forall b disp items x,
  (macro b true disp items = Done x -> forallb (fun c => prio_supported b (snd c)) (configured b (x_app x) (x_ints x)) = true -> expand b disp items = Some x) /\
  (expand b disp items = Some x -> macro b true disp items <> Panic -> macro b true disp items = Done x).
Proof.
  intros b disp items x. split.
  - intros H Hp. unfold macro in H. apply bind_done in H as (a & Ha & H). apply bind_done in H as (u & Hs & H). apply bind_done in H as (y & Hy & H).
    apply bind_done in H as (a' & Hpre & H). apply bind_done in H as (u' & Hu & H). apply bind_done in H as (ints & Hi & H). apply bind_done in H as (u'' & _ & H). injection H as <-.
    apply parse_done in Ha. apply analyze_done in Hy. apply arch_done in Hu. destruct Hu as [Hu _]. apply assign_done in Hi.
    unfold expand. rewrite Ha. unfold require in Hs. destruct (syntax_check a); [|discriminate]. cbn [negb]. rewrite Hy.
    destruct (preprocess b a) as [a2|]; [injection Hpre as -> | discriminate]. rewrite Hu. cbn [negb]. rewrite Hi. cbn [x_app x_ints] in Hp. now rewrite Hp.
  - intros Hx. destruct (expand_accepted _ _ _ Hx) as [a H]. unfold macro.
    rewrite (proj2 (parse_done disp items a) (ac_parse H)). cbn [bind]. rewrite (ac_check H). cbn [require bind].
    pose proof (analyze_np _ (ac_check H)) as Np.
    assert (Ey : analyze_res a = Done (x_ana x)).
    { unfold analyze_res in *. rewrite (ac_lf H), (ac_lr H), (ac_zero H) in *. cbn [orb negb require bind] in *. rewrite (ac_ana H) in *.
      destruct (each _ (accesses a)) eqn:Ee; cbn [bind] in *; [congruence | exfalso; revert Ee; apply each_ne; intros; apply bind_ne; [apply expect_ne | discriminate] |].
      unfold assert in *. destruct (forallb _ _); cbn [bind] in *; [reflexivity | congruence]. }
    rewrite Ey. cbn [bind]. rewrite (ac_pre H). cbn [bind]. destruct (arch_ok _ _ (ac_arch H)) as [u ->]. cbn [bind].
    intros Hnp. destruct (assign_res (x_app x)) as [| |ints] eqn:Ea; cbn [bind] in *; [congruence | exfalso; revert Ea; apply assign_ne|].
    pose proof (assign_done _ Ea) as Ei. rewrite (ac_ints H) in Ei. injection Ei as <-.
    destruct (codegen_res (x_app x) (x_ana x) (x_ints x)) eqn:Ec; cbn [bind] in *; [congruence | exfalso; revert Ec; apply codegen_ne |]. now destruct x.
Qed.

(** For an application that follows all the rules, the macro panics exactly if a function, a resource or a dispatcher in use has a
    name with # in it, that is, a raw identifier. *)
Theorem C89_accepted_panics_iff_raw :
  forall b disp items x, expand b disp items = Some x ->
  (macro b true disp items = Panic <-> exists n, names items (map snd (x_ints x)) n /\ ~ plain n).
Proof.
  intros b disp items x Hx. destruct (expand_accepted _ _ _ Hx) as [a H]. pose proof (ac_parsed H) as P. pose proof (pd_wf P) as W.
  pose proof (@ready_of b a (x_app x) (x_ana x) (x_ints x) W (ac_check H) (ac_ana H) (ac_pre H) (ac_ints H)) as R. split.
  - intros Hp.
    assert (Hk : forall k, exists i, In i items /\ is_needed k i = true).
    { pose proof (ac_parse H) as Ep. unfold parse_app in Ep. destruct (parse_disp [] disp); [|discriminate]. destruct (parse_items pst0 items) as [s|] eqn:Es; [|discriminate].
      assert (M : forall k, ~ missing k s).
      { intros k K. destruct k; simpl in K; rewrite K in Ep; [discriminate | destruct (p_sid s); discriminate | destruct (p_sid s); [destruct (p_lid s); discriminate | discriminate]]. }
      intros k. destruct (existsb (is_needed k) items) eqn:Ex; [apply existsb_exists in Ex; exact Ex|]. exfalso. apply (M k). apply (items_missing _ _ k Es). split; [destruct k; reflexivity|].
      intros i Hi. destruct (is_needed k i) eqn:Ei; [|reflexivity]. rewrite <- Ex. symmetry. apply existsb_exists. eauto. }
    destruct (codegen_res (x_app x) (x_ana x) (x_ints x)) eqn:Ec.
    + destruct (existsb has_hash (gen_names (x_app x) (x_ints x))) eqn:Ex.
      * apply existsb_exists in Ex. destruct Ex as (n & Hn & Hh). exists n. split; [|rewrite hash_plain; congruence].
        rewrite (ac_app H) in Hn. apply (@gen_names_src _ _ _ _ _ _ P) in Hn. destruct Hn as [Hn | Hn]; [|now apply N_disp].
        clear -Hn. destruct Hn as [n lo sn ln H | n k p sh lo H | n r H | n t H | t n H | n H]; [eapply N_init | eapply N_task | eapply N_shared | eapply N_local | eapply N_decl | destruct H]; exact H.
      * exfalso. revert Ec. apply codegen_np; [exact R|]. intros n Hn. destruct (has_hash n) eqn:Eh; [|reflexivity]. rewrite <- Ex. symmetry. apply existsb_exists. eauto.
    + exfalso. revert Ec. apply codegen_ne.
    + exfalso. revert Hp. unfold macro. rewrite (proj2 (parse_done disp items a) (ac_parse H)). cbn [bind]. rewrite (ac_check H). cbn [require bind].
      pose proof (analyze_np _ (ac_check H)) as Np. apply bind_np; [exact Np|]. intros y Hy. apply analyze_done in Hy. rewrite (ac_ana H) in Hy. injection Hy as <-.
      rewrite (ac_pre H). cbn [bind]. apply bind_np; [apply arch_np|]. intros u Hu. apply arch_done in Hu. destruct Hu as [_ En].
      apply bind_np; [apply assign_np; [exact (rd_wf R) | exact En]|]. intros ints Hi. apply assign_done in Hi. rewrite (ac_ints H) in Hi. injection Hi as <-.
      rewrite Ec. discriminate.
  - intros (n & Hn & Hr). destruct (macro b true disp items) as [| |x'] eqn:Em; [reflexivity | |].
    + exfalso. assert (K : macro b true disp items <> Panic) by congruence. apply (proj2 (C89_same_result b disp items x) Hx) in K. congruence.
    + exfalso. assert (K : macro b true disp items <> Panic) by congruence. apply (proj2 (C89_same_result b disp items x) Hx) in K.
      assert (x' = x) by congruence. subst x'. clear Em. unfold macro in K.
      apply bind_done in K as (a1 & Ha & K). apply bind_done in K as (u & _ & K). apply bind_done in K as (y & _ & K).
      apply bind_done in K as (a' & _ & K). apply bind_done in K as (u' & _ & K). apply bind_done in K as (ints & _ & K). apply bind_done in K as (u'' & Hc & K).
      assert (E : a' = x_app x /\ y = x_ana x /\ ints = x_ints x) by (injection K as K; rewrite <- K; auto). destruct E as (-> & -> & ->).
      apply Hr, hash_plain. apply (@codegen_done _ _ _ _ R Hc). rewrite (ac_app H). now apply (@src_gen_names _ _ _ _ _ _ P).
Qed.

(** Not so: a raw identifier as the name of a task, of init or idle, or of a resource, of an otherwise correct application. *)
Theorem C89_raw_identifier_refuted :
  forall b disp items x n, expand b disp items = Some x -> names items [] n -> raw n -> macro b true disp items = Panic.
Proof.
  intros b disp items x n Hx Hn Hr. apply (C89_accepted_panics_iff_raw _ _ _ Hx). exists n. split; [|now apply plain_not_raw].
  destruct Hn as [n lo sn ln H | n k p sh lo H | n r H | n t H | t n H | n H]; [eapply N_init | eapply N_task | eapply N_shared | eapply N_local | eapply N_decl | destruct H]; exact H.
Qed.

(** Nor if an item that every application must have is left out: the macro expects it. *)
Record sub (s' s : pst) : Prop := {
  sub_init : p_init s' = p_init s \/ p_init s' = None;
  sub_idle : p_idle s' = p_idle s;
  sub_shared : p_shared s' = p_shared s \/ p_shared s' = [];
  sub_local : p_local s' = p_local s \/ p_local s' = [];
  sub_hw : p_hw s' = p_hw s;
  sub_sw : p_sw s' = p_sw s;
  sub_bind : p_bind s' = p_bind s;
  sub_seen : forall n, mem n (p_seen s') = true -> mem n (p_seen s) = true }.

Lemma seen_cons n l l' : (forall m, mem m l' = true -> mem m l = true) -> forall m, mem m (n :: l') = true -> mem m (n :: l) = true.
Proof. intros H m. unfold mem. simpl. destruct (ieq m n); simpl; [auto | apply H]. Qed.
Lemma seen_skip n l l' : (forall m, mem m l' = true -> mem m l = true) -> forall m, mem m l' = true -> mem m (n :: l) = true.
Proof. intros H m K. unfold mem. simpl. destruct (ieq m n); simpl; [auto | now apply H]. Qed.

Ltac crush H := repeat match type of H with
    | match ?x with _ => _ end = _ => destruct x eqn:?; try discriminate
    | (if ?x then _ else _) = _ => destruct x eqn:?; try discriminate
    end.

Lemma sub_item s' s i t : sub s' s -> parse_item s i = Some t -> exists t', parse_item s' i = Some t' /\ sub t' t.
Proof.
  intros [S1 S2 S3 S4 S5 S6 S7 S8] H.
  assert (SF : forall n, mem n (p_seen s) = false -> mem n (p_seen s') = false).
  { intros n Hn. destruct (mem n (p_seen s')) eqn:E; [apply S8 in E; congruence | reflexivity]. }
  destruct i; cbn [parse_item] in *; crush H; injection H as <-.
  all: rewrite ?S2, ?S5, ?S6, ?S7.
  all: repeat match goal with E : mem _ (p_seen ?a) = false, K : forall n, mem n (p_seen ?a) = false -> mem n (p_seen ?c) = false |- _ => apply K in E end.
  all: repeat match goal with E : ?x = _ |- context [match ?x with _ => _ end] => rewrite E end.
  all: repeat match goal with E : ?x = _ |- context [if ?x then _ else _] => rewrite E end.
  all: repeat match goal with
         | H : ?x = ?n \/ ?x = ?n |- _ => let K := fresh in assert (K : x = n) by (destruct H; assumption); clear H; rewrite ?K
         end.
  all: eexists; split; [reflexivity|].
  all: constructor; cbn; auto; apply seen_cons; assumption.
Qed.
Lemma sub_skip s' s i t k : sub s' s -> is_needed k i = true -> parse_item s i = Some t -> sub s' t.
Proof.
  intros [S1 S2 S3 S4 S5 S6 S7 S8] Hk H. destruct k, i; try discriminate Hk; cbn [parse_item] in *; crush H; injection H as <-.
  all: constructor; cbn; auto; try (apply seen_skip; assumption); right.
  - destruct S3; congruence.
  - destruct S4; congruence.
  - destruct S1; congruence.
Qed.
Lemma sub_items k l : forall s' s t, sub s' s -> parse_items s l = Some t -> exists t', parse_items s' (without k l) = Some t' /\ sub t' t.
Proof.
  induction l as [|i l IH]; simpl; intros s' s t HS H; [injection H as <-; eauto|].
  destruct (parse_item s i) as [s1|] eqn:E; [|discriminate]. destruct (is_needed k i) eqn:K; simpl.
  - eapply IH; [eapply sub_skip; [exact HS | exact K | exact E] | exact H].
  - destruct (@sub_item _ _ _ _ HS E) as (s1' & -> & HS1). eapply IH; eauto.
Qed.

Theorem C89_missing_item_refuted :
  forall b hart disp items x k, expand b disp items = Some x -> macro b hart disp (without k items) = Panic.
Proof.
  intros b hart disp items x k Hx. destruct (expand_accepted _ _ _ Hx) as [a H]. pose proof (ac_parse H) as Ep.
  unfold parse_app in Ep. unfold macro, parse_res. destruct (parse_disp [] disp) as [d|]; [|discriminate]. destruct (parse_items pst0 items) as [s|] eqn:Es; [|discriminate].
  assert (S0 : sub pst0 pst0) by (constructor; auto). destruct (sub_items k _ S0 Es) as (t & Et & _). rewrite Et.
  assert (M : missing k t).
  { apply (items_missing _ _ k Et). split; [destruct k; reflexivity|]. intros i Hi. apply filter_In in Hi. now apply negb_true_iff. }
  destruct (p_sid t) eqn:E1; [|reflexivity]. cbn [expect bind]. destruct (p_lid t) eqn:E2; [|reflexivity]. cbn [expect bind]. destruct (p_init t) eqn:E3; [|reflexivity].
  exfalso. destruct k; simpl in M; congruence.
Qed.

(** ** Concrete cases *)
Lemma ex_done : macro (Cortex 3) true ex_disp ex_items = Done ex_x.
Proof. vm_compute. reflexivity. Qed.
Example C89_case : (forall k, exists i, In i ex_items /\ is_needed k i = true) /\ (forall n, names ex_items ex_disp n -> plain n) /\ macro (Cortex 3) true ex_disp ex_items = Done ex_x.
Proof.
  split; [|split; [|exact ex_done]].
  - intros k. destruct (existsb (is_needed k) ex_items) eqn:E; [apply existsb_exists in E; exact E | destruct k; discriminate].
  - intros n Hn. apply hash_plain. destruct (has_hash n) eqn:E; [|reflexivity]. exfalso.
    assert (K : ~ plain n) by (rewrite hash_plain; congruence).
    assert (D : In n ex_disp \/ names ex_items (map snd (x_ints ex_x)) n).
    { destruct Hn as [n lo sn ln H | n k p sh lo H | n r H | n t H | t n H | n H]; [right; eapply N_init | right; eapply N_task | right; eapply N_shared | right; eapply N_local | right; eapply N_decl | left]; exact H. }
    destruct D as [D | D].
    + simpl in D. repeat (destruct D as [<- | D]; [discriminate E|]). destruct D.
    + assert (Hp : macro (Cortex 3) true ex_disp ex_items = Panic) by (apply (C89_accepted_panics_iff_raw _ _ _ ex_accepted); eauto). rewrite ex_done in Hp. discriminate.
Qed.

(** [async fn r#match] follows the rules, and makes the macro panic; so does an application without #[shared]. *)
Definition raw_items : list item := ex_items ++ [sw "r#match" 3 [] None []].
Example C89_refuted_case : (exists x, expand (Cortex 3) ex_disp raw_items = Some x) /\ names raw_items [] "r#match" /\ raw "r#match" /\
  macro (Cortex 3) true ex_disp raw_items = Panic /\ without TheShared ex_items <> ex_items /\ macro (Cortex 3) true ex_disp (without TheShared ex_items) = Panic.
Proof.
  split; [|split; [|split; [|split; [|split]]]].
  - destruct (expand (Cortex 3) ex_disp raw_items) as [x|] eqn:E; [eauto|]. vm_compute in E. discriminate.
  - eapply N_task. eapply S_soft; [simpl; repeat (first [left; reflexivity | right]) | reflexivity].
  - exists "match". reflexivity.
  - vm_compute. reflexivity.
  - discriminate.
  - vm_compute. reflexivity.
Qed.
(** A mistake that is reported: too few dispatchers. *)
Example C89_error_case : macro (Cortex 3) true ["SSI0"] ex_items = Error.
Proof. vm_compute. reflexivity. Qed.
