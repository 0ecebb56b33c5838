(** C88: whatever features the crates of a build turn on, the build fails or the library and the macro are compiled for the
    same, single backend, the one selected. *)
From Coq Require Import List String Ascii Bool Arith Lia.
From Verif Require Import BuildModel.
Import ListNotations.
Open Scope string_scope.
Open Scope list_scope.

(** ** Specification *)

(** The documented backends and the mechanism each stands for (rtic/Cargo.toml, book/en/src/starting_a_project.md). *)
Definition backend_table : list (string * mechanism) :=
  [ ("thumbv6-backend", SourceMasking); ("thumbv8base-backend", SourceMasking);
    ("thumbv7-backend", Basepri); ("thumbv8main-backend", Basepri);
    ("riscv-esp32c3-backend", Esp32c3); ("riscv-esp32c6-backend", Esp32c6);
    ("riscv-clint-backend", SlicClint); ("riscv-mecall-backend", SlicMecall) ].

(** Cargo's variable for a feature: CARGO_FEATURE_<name>, in upper case, with _ for -. *)
Definition upper (c : ascii) : ascii :=
  let n := nat_of_ascii c in
  if Ascii.eqb c "-"%char then "_"%char else if andb (Nat.leb 97 n) (Nat.leb n 122) then ascii_of_nat (n - 32) else c.
Definition variable (f : string) : string := "CARGO_FEATURE_" ++ smap upper f.

(** An environment in which cargo runs the build script of a package with the features [fs] enabled: any variables, in any order,
    those that start with CARGO_FEATURE_ being one for each enabled feature. *)
Record cargo_env (fs : list string) (e : env) : Prop := {
  ce_nodup : NoDup e;
  ce_on : forall f, In f fs -> In (variable f) e;
  ce_only : forall v r, In v e -> v = ("CARGO_FEATURE_" ++ r)%string -> exists f, In f fs /\ v = variable f }.

(** Enabled features of [rtic] and the features other crates enable on [rtic-macros] exist. *)
Definition known (F E : list string) : Prop := incl F (map fst rtic_features) /\ incl E macro_features.

(** ** Proofs *)

Lemma strip_app p s : strip_prefix p (p ++ s) = Some s.
Proof. induction p as [|a p IH]; simpl; [destruct s; reflexivity | now rewrite Ascii.eqb_refl]. Qed.

Lemma strip_some p s r : strip_prefix p s = Some r -> s = (p ++ r)%string.
Proof.
  revert s; induction p as [|a p IH]; simpl; intros s H; [destruct s; congruence|].
  destruct s as [|b s]; [discriminate|]. destruct (Ascii.eqb_spec a b); [subst | discriminate]. f_equal; now apply IH.
Qed.

Lemma fm_in {A B} (f : A -> option B) l y : In y (filter_map f l) <-> exists x, In x l /\ f x = Some y.
Proof.
  induction l as [|x l IH]; simpl; [split; [tauto | intros (x & [] & _)]|].
  destruct (f x) eqn:E; simpl; rewrite IH; split.
  - intros [<- | (z & Hz & Ez)]; eauto.
  - intros (z & [<- | Hz] & Ez); [left; congruence | right; eauto].
  - intros (z & Hz & Ez); eauto.
  - intros (z & [<- | Hz] & Ez); [congruence | eauto].
Qed.

Lemma fm_one {A B} (f : A -> option B) (x : A) l : NoDup l -> (forall z y, In z l -> f z = Some y -> z = x) -> List.length (filter_map f l) <= 1.
Proof.
  induction l as [|a l IH]; simpl; intros Hn Hx; [lia|]. inversion Hn; subst.
  destruct (f a) eqn:E; simpl.
  - assert (a = x) by eauto. subst a.
    enough (filter_map f l = []) as -> by (simpl; lia).
    destruct (filter_map f l) as [|y r] eqn:Ef; [reflexivity|].
    assert (Hy : In y (filter_map f l)) by (rewrite Ef; now left).
    apply fm_in in Hy. destruct Hy as (z & Hz & Ez). assert (z = x) by eauto. subst z. contradiction.
  - apply IH; eauto.
Qed.

Definition all_features := List.app (map fst rtic_features) macro_features.

Lemma norm_all : forall f, In f all_features -> norm (smap upper f) = f.
Proof.
  apply Forall_forall. unfold all_features, rtic_features, macro_features. cbn [map fst List.app].
  repeat (apply Forall_cons; [vm_compute; reflexivity|]). apply Forall_nil.
Qed.

(** A feature name of [rtic] is a backend iff it is not [default]. *)
Lemma ends_all : forall f, In f (map fst rtic_features) -> ends_with "BACKEND" (smap upper f) = negb (String.eqb f "default").
Proof.
  apply Forall_forall. unfold rtic_features. cbn [map fst].
  repeat (apply Forall_cons; [vm_compute; reflexivity|]). apply Forall_nil.
Qed.

Lemma backends_in fs e b : cargo_env fs e -> incl fs (map fst rtic_features) -> In b (backends e) <-> In b fs /\ b <> "default".
Proof.
  intros [_ Hon Honly] Hk. unfold backends. rewrite fm_in. split.
  - intros (v & Hv & E). destruct (strip_prefix "CARGO_FEATURE_" v) as [r|] eqn:Es; [|discriminate].
    apply strip_some in Es. destruct (Honly _ _ Hv Es) as (f & Hf & Ev).
    assert (r = smap upper f).
    { unfold variable in Ev. pose proof (strip_app "CARGO_FEATURE_" r) as A. rewrite <- Es, Ev, strip_app in A. congruence. }
    subst r. rewrite (ends_all f (Hk _ Hf)) in E. rewrite norm_all in E by (apply in_or_app; left; now apply Hk).
    destruct (String.eqb_spec f "default"); simpl in E; [discriminate|]. injection E as <-. auto.
  - intros [Hf Hd]. exists (variable b). split; [auto|]. unfold variable. rewrite strip_app, (ends_all b (Hk _ Hf)), norm_all
      by (apply in_or_app; left; now apply Hk).
    apply String.eqb_neq in Hd. now rewrite Hd.
Qed.

Lemma ndf_in fs e b : cargo_env fs e -> incl fs macro_features -> In b (non_default_features e) <-> In b fs /\ b <> "default".
Proof.
  intros [_ Hon Honly] Hk. unfold non_default_features. rewrite fm_in. split.
  - intros (v & Hv & E). destruct (strip_prefix "CARGO_FEATURE_" v) as [r|] eqn:Es; [|discriminate].
    apply strip_some in Es. destruct (Honly _ _ Hv Es) as (f & Hf & Ev).
    assert (r = smap upper f).
    { unfold variable in Ev. pose proof (strip_app "CARGO_FEATURE_" r) as A. rewrite <- Es, Ev, strip_app in A. congruence. }
    subst r. cbv zeta in E. rewrite norm_all in E by (apply in_or_app; right; now apply Hk).
    destruct (String.eqb_spec f "default"); [discriminate|]. injection E as <-. auto.
  - intros [Hf Hd]. exists (variable b). split; [auto|]. unfold variable. rewrite strip_app. cbv zeta.
    rewrite norm_all by (apply in_or_app; right; now apply Hk).
    apply String.eqb_neq in Hd. now rewrite Hd.
Qed.

Lemma pop_in {A} (l : list A) x r : pop l = Some (x, r) -> In x l /\ List.length l = S (List.length r).
Proof.
  revert x r; induction l as [|a l IH]; simpl; intros x r H; [discriminate|].
  destruct l as [|b l]; [injection H as <- <-; simpl; auto|].
  destruct (pop (b :: l)) as [[y r']|] eqn:E; [|discriminate]. injection H as <- <-.
  destruct (IH _ _ eq_refl) as [Hi Hl]. split; [now right|]. cbn [List.length] in *. lia.
Qed.

Lemma pop_none {A} (l : list A) : pop l = None -> l = [].
Proof.
  induction l as [|a l IH]; simpl; [reflexivity|]. destruct l as [|b l]; [discriminate|].
  destruct (pop (b :: l)) as [[y r']|] eqn:E; [discriminate|]. intros _. specialize (IH eq_refl). discriminate.
Qed.

Lemma len1 {A} (l : list A) x y : List.length l <= 1 -> In x l -> In y l -> x = y.
Proof. destruct l as [|a [|b l]]; simpl; intros; try lia; intuition congruence. Qed.

Lemma mk_incl F E : incl E macro_features -> incl (macro_enabled F E) macro_features.
Proof.
  intros HE x [<- | Hx]; [now left|]. apply in_app_or in Hx. destruct Hx as [Hx | Hx]; [|auto].
  apply in_flat_map in Hx. destruct Hx as (p & Hp & Hx). destruct (in_dec string_dec (fst p) F); [|destruct Hx].
  revert x Hx. revert p Hp i. unfold rtic_features.
  intros p Hp _ x Hx. simpl in Hp. unfold macro_features.
  repeat (destruct Hp as [<- | Hp]; [simpl in *; intuition (subst; auto 10)|]). destruct Hp.
Qed.

Lemma rtic_ok F e i : incl F (map fst rtic_features) -> cargo_env F e -> rtic_build e = Sets i ->
  exists t, In t F /\ t <> "default" /\ (forall f, In f F -> f = t \/ f = "default") /\ In (t, i) impls.
Proof.
  intros Hk He. unfold rtic_build. destruct (Nat.ltb_spec 1 (List.length (backends e))) as [|Hl]; [discriminate|].
  destruct (pop (backends e)) as [[b r]|] eqn:Ep; [|discriminate].
  destruct (pop_in _ _ _ Ep) as [Hb _]. destruct (find _ impls) as [[b' i']|] eqn:Ef; [|discriminate].
  intros [= ->]. apply find_some in Ef. destruct Ef as [Hin Eb]. cbn [fst] in Eb. apply String.eqb_eq in Eb. subst b'.
  pose proof (proj1 (backends_in F e b He Hk) Hb) as [HF Hd]. exists b. repeat split; auto.
  intros f Hf. destruct (string_dec f "default") as [|Hfd]; [now right|]. left.
  apply (@len1 _ (backends e)); auto. now apply (backends_in F e f He Hk).
Qed.

Lemma macros_ok fs e s : incl fs macro_features -> cargo_env fs e -> macros_build e = Sets s ->
  exists g, In g fs /\ g <> "default" /\ (forall f, In f fs -> f = g \/ f = "default") /\
            s = orb (String.eqb g "riscv-clint") (String.eqb g "riscv-mecall").
Proof.
  intros Hk He. unfold macros_build. destruct (pop (non_default_features e)) as [[g r]|] eqn:Ep; [|discriminate].
  destruct r; [|discriminate]. intros [= <-]. destruct (pop_in _ _ _ Ep) as [Hg Hl]. simpl in Hl.
  pose proof (proj1 (ndf_in fs e g He Hk) Hg) as [HF Hd]. exists g. repeat split; auto.
  intros f Hf. destruct (string_dec f "default") as [|Hfd]; [now right|]. left.
  apply (@len1 _ (non_default_features e)); [lia | | auto]. now apply (ndf_in fs e f He Hk).
Qed.

Lemma asked F E t p : In t F -> In (t, p) rtic_features -> incl p (macro_enabled F E).
Proof.
  intros HF Hp x Hx. right. apply in_or_app. left. apply in_flat_map. exists (t, p). split; [auto|]. cbn [fst snd].
  destruct (in_dec string_dec t F); tauto.
Qed.

Lemma uniq_in {A} (l fs : list A) (g d : A) f : (forall x, In x fs -> x = g \/ x = d) -> In f fs -> f <> d -> f = g.
Proof. intros H Hf Hd. destruct (H _ Hf); tauto. Qed.

(** A conjunction that decides, for a given backend, everything about the modules *)
Lemma modules_of fs g : In g fs -> g <> "default" -> (forall f, In f fs -> f = g \/ f = "default") ->
  macro_modules fs (orb (String.eqb g "riscv-clint") (String.eqb g "riscv-mecall"))
  = macro_modules ["default"; g] (orb (String.eqb g "riscv-clint") (String.eqb g "riscv-mecall")).
Proof.
  intros Hg Hd Hall. unfold macro_modules.
  assert (Hon : forall f, f <> "default" ->
     (if in_dec string_dec f fs then true else false) = (if in_dec string_dec f ["default"; g] then true else false)).
  { intros f Hf. destruct (in_dec string_dec f fs) as [i|n], (in_dec string_dec f ["default"; g]) as [i'|n']; try reflexivity.
    - exfalso. apply n'. destruct (Hall _ i); [subst; simpl; auto | tauto].
    - exfalso. apply n. destruct i' as [<- | [<- | []]]; [tauto | auto]. }
  rewrite (Hon "cortex-m-source-masking"), (Hon "cortex-m-basepri"), (Hon "test-template"), (Hon "riscv-esp32c3"),
    (Hon "riscv-esp32c6"), (Hon "riscv-clint"), (Hon "riscv-mecall") by discriminate.
  reflexivity.
Qed.

Lemma slics F t : In t F -> t <> "default" -> (forall f, In f F -> f = t \/ f = "default") -> In t (map fst rtic_features) ->
  forall x, In x (flat_map slic_features F) <-> In x (slic_features t).
Proof.
  intros Ht Hd Hall Hk x. rewrite in_flat_map. split.
  - intros (f & Hf & Hx). destruct (Hall _ Hf); subst; [auto|]. simpl in Hx. destruct Hx.
  - intros Hx. eauto.
Qed.

Lemma lib_ext i a b : (forall x : string, In x a <-> In x b) -> library_modules i a = library_modules i b.
Proof.
  intros H. unfold library_modules.
  assert (Hon : forall f (A : Type) (u v : A), (if in_dec string_dec f a then u else v) = (if in_dec string_dec f b then u else v)).
  { intros f A u v. destruct (in_dec string_dec f a) as [p|p], (in_dec string_dec f b) as [q|q]; try reflexivity; exfalso; apply H in p || apply H in q; tauto. }
  now rewrite !Hon.
Qed.

(** ** Theorems *)

(** C88. If both build scripts accept, whatever features are enabled anywhere, in whatever environment, then exactly one backend of
    [rtic] is selected, exactly one locking mechanism is compiled into the library and exactly one into the macro, and both are the
    one the selected backend stands for. *)
Theorem C88_same_backend :
  forall F E er em impl slic,
  known F E -> cargo_env F er -> cargo_env (macro_enabled F E) em ->
  rtic_build er = Sets impl -> macros_build em = Sets slic ->
  exists t m, In (t, m) backend_table /\ In t F /\ (forall f, In f F -> f = t \/ f = "default") /\
    library_modules impl (flat_map slic_features F) = [m] /\
    macro_modules (macro_enabled F E) slic = [m].
Proof.
  intros F E er em impl slic [HF HE] Her Hem Hr Hm.
  destruct (rtic_ok _ _ _ HF Her Hr) as (t & Ht & Htd & Hta & Hti).
  destruct (macros_ok _ _ _ (mk_incl F E HE) Hem Hm) as (g & Hg & Hgd & Hga & ->).
  rewrite (modules_of _ g Hg Hgd Hga), (lib_ext impl _ _ (slics F t Ht Htd Hta (HF _ Ht))).
  assert (Hq : forall p, In (t, p) rtic_features -> forall x, In x p -> x <> "default" -> x = g).
  { intros p Hp x Hx Hxd. apply (asked F E t p Ht Hp) in Hx. destruct (Hga _ Hx); tauto. }
  exists t. unfold impls in Hti. simpl in Hti.
  repeat (destruct Hti as [Hti | Hti];
    [injection Hti as <- <-; eexists; split; [unfold backend_table; simpl; eauto 12|]; split; [exact Ht|]; split; [exact Hta|];
     split; [vm_compute; reflexivity|];
     match goal with Hq : forall p, In (?t, p) _ -> _ |- _ =>
       let p := eval vm_compute in (match find (fun q => String.eqb (fst q) t) rtic_features with Some q => snd q | None => [] end) in
       match p with [?x] => assert (Hgx : x = g) by (apply (Hq [x]); [unfold rtic_features; simpl; auto 12 | now left | discriminate]);
         subst g; vm_compute; reflexivity end end|]).
  destruct Hti.
Qed.

(** Selecting one of the eight backends, and nothing else, is accepted, in any environment. *)
Theorem C88_selected_builds :
  forall t m F er em,
  In (t, m) backend_table -> In t F -> (forall f, In f F -> f = t \/ f = "default") ->
  cargo_env F er -> cargo_env (macro_enabled F []) em ->
  (exists impl, rtic_build er = Sets impl) /\ (exists slic, macros_build em = Sets slic).
Proof.
  intros t m F er em Ht HtF Hall Her Hem.
  assert (Hk : In t (map fst rtic_features)).
  { clear -Ht. revert Ht. unfold backend_table. simpl. intros Ht.
    repeat (destruct Ht as [Ht | Ht]; [injection Ht as <- <-; auto 12|]). destruct Ht. }
  assert (HF : incl F (map fst rtic_features)).
  { intros f Hf. destruct (Hall _ Hf); subst; [auto | now left]. }
  assert (Htd : t <> "default").
  { clear -Ht. unfold backend_table in Ht. simpl in Ht.
    repeat (destruct Ht as [Ht | Ht]; [injection Ht as <- <-; discriminate|]). destruct Ht. }
  split.
  - unfold rtic_build.
    assert (Hb : In t (backends er)) by now apply (backends_in F er t Her HF).
    assert (Hl : List.length (backends er) <= 1).
    { destruct Her as [Hn Hon Honly]. apply (@fm_one _ _ _ (variable t)); [exact Hn|]. intros z y Hz Hy.
      destruct (strip_prefix "CARGO_FEATURE_" z) as [r|] eqn:Es; [|discriminate]. apply strip_some in Es.
      destruct (Honly _ _ Hz Es) as (f & Hf & Ev). destruct (Hall _ Hf) as [-> | ->]; [exact Ev|].
      assert (Er : r = smap upper "default").
      { unfold variable in Ev. pose proof (strip_app "CARGO_FEATURE_" r) as A. rewrite <- Es, Ev, strip_app in A. congruence. }
      subst r. rewrite (ends_all "default") in Hy by now left. discriminate. }
    destruct (Nat.ltb_spec 1 (List.length (backends er))); [lia|].
    destruct (pop (backends er)) as [[b r]|] eqn:Ep.
    + destruct (pop_in _ _ _ Ep) as [Hb' _]. rewrite (len1 _ b t Hl Hb' Hb).
      clear -Ht. unfold backend_table in Ht. simpl in Ht.
      repeat (destruct Ht as [Ht | Ht]; [injection Ht as <- <-; vm_compute; eauto|]). destruct Ht.
    + apply pop_none in Ep. rewrite Ep in Hb. destruct Hb.
  - assert (Hg : exists g, In g macro_features /\ g <> "default" /\ forall f, In f (macro_enabled F []) <-> f = g \/ f = "default").
    { assert (Hx : forall f p, In (f, p) rtic_features -> In f F -> f <> "default" -> f = t) by (intros f p _ Hf Hd; destruct (Hall _ Hf); tauto).
      assert (Hen : forall f, In f (macro_enabled F []) <-> f = "default" \/ exists p, In (t, p) rtic_features /\ In f p).
      { intros f. unfold macro_enabled. rewrite app_nil_r. split.
        - intros [<- | Hff]; [now left|]. apply in_flat_map in Hff. destruct Hff as (q & Hq & Hf). destruct (in_dec string_dec (fst q) F) as [i|]; [|destruct Hf].
          destruct q as [q p]. cbn [fst snd] in *. destruct (Hall _ i) as [-> | ->]; [right; eauto|].
          exfalso. clear -Hq Hf. unfold rtic_features in Hq. simpl in Hq.
          repeat (destruct Hq as [Hq | Hq]; [(injection Hq as Hq' <-; (discriminate Hq' || destruct Hf)) || (injection Hq as <-; destruct Hf) || discriminate Hq|]). destruct Hq.
        - intros [-> | (p & Hp & Hf)]; [now left|]. right. apply in_flat_map. exists (t, p). split; [auto|]. cbn [fst snd].
          destruct (in_dec string_dec t F); tauto. }
      assert (Hone : exists g, In g macro_features /\ g <> "default" /\ forall p, In (t, p) rtic_features <-> p = [g]).
      { clear -Ht. unfold backend_table in Ht. simpl in Ht.
        repeat (destruct Ht as [Ht | Ht]; [injection Ht as <- <-;
          match goal with |- exists g, _ /\ _ /\ forall p, In (?t, p) _ <-> _ =>
            let p := eval vm_compute in (match find (fun q => String.eqb (fst q) t) rtic_features with Some q => snd q | None => [] end) in
            match p with [?x] => exists x; split; [unfold macro_features; simpl; auto 12|]; split; [discriminate|];
              intros q; split; [intros Hq; unfold rtic_features in Hq; simpl in Hq;
                repeat (destruct Hq as [Hq | Hq]; [discriminate Hq || congruence|]); destruct Hq
              | intros ->; unfold rtic_features; simpl; auto 12] end end|]). destruct Ht. }
      destruct Hone as (g & Hgm & Hgd & Hgp). exists g. split; [exact Hgm|]. split; [exact Hgd|]. intros f. rewrite Hen. split.
      - intros [-> | (p & Hp & Hf)]; [now right|]. apply Hgp in Hp. subst p. destruct Hf as [<- | []]. now left.
      - intros [-> | ->]; [right; exists [g]; split; [now apply Hgp | now left] | now left]. }
    destruct Hg as (g & Hgm & Hgd & Hgf).
    assert (Hk' : incl (macro_enabled F []) macro_features) by (apply mk_incl; intros x []).
    assert (Hb : In g (non_default_features em)).
    { apply (ndf_in _ em g Hem Hk'). split; [apply Hgf; now left | exact Hgd]. }
    assert (Hl : List.length (non_default_features em) <= 1).
    { destruct Hem as [Hn Hon Honly]. apply (@fm_one _ _ _ (variable g)); [exact Hn|]. intros z y Hz Hy.
      destruct (strip_prefix "CARGO_FEATURE_" z) as [r|] eqn:Es; [|discriminate]. apply strip_some in Es.
      destruct (Honly _ _ Hz Es) as (f & Hf & Ev). apply Hgf in Hf. destruct Hf as [-> | ->]; [exact Ev|].
      assert (Er : r = smap upper "default").
      { unfold variable in Ev. pose proof (strip_app "CARGO_FEATURE_" r) as A. rewrite <- Es, Ev, strip_app in A. congruence. }
      subst r. cbv zeta in Hy. rewrite (norm_all "default") in Hy by now left. discriminate. }
    unfold macros_build. destruct (pop (non_default_features em)) as [[b r]|] eqn:Ep.
    + destruct (pop_in _ _ _ Ep) as [_ Hlr]. destruct r; [eauto | simpl in Hlr; lia].
    + apply pop_none in Ep. rewrite Ep in Hb. destruct Hb.
Qed.

(** No backend, or two, is refused, whatever the environment: also two that use the same mechanism. *)
Theorem C88_none_or_two_fail :
  forall F er, incl F (map fst rtic_features) -> cargo_env F er ->
  ((forall f, In f F -> f = "default") \/ (exists f g, In f F /\ In g F /\ f <> g /\ f <> "default" /\ g <> "default")) ->
  rtic_build er = Fails.
Proof.
  intros F er HF Her H. destruct (rtic_build er) as [|i] eqn:E; [reflexivity|]. exfalso.
  destruct (rtic_ok _ _ _ HF Her E) as (t & Ht & Htd & Hta & _).
  destruct H as [H | (f & g & Hf & Hg & Hn & Hfd & Hgd)]; [auto|].
  destruct (Hta _ Hf), (Hta _ Hg); subst; tauto.
Qed.

(** A crate that turns on, for the macro, a feature the selected backend did not ask for makes the build fail. *)
Theorem C88_foreign_feature_fails :
  forall F E er em impl f,
  known F E -> cargo_env F er -> cargo_env (macro_enabled F E) em -> rtic_build er = Sets impl ->
  In f E -> f <> "default" -> ~ In f (macro_enabled F []) -> macros_build em = Fails.
Proof.
  intros F E er em impl f [HF HE] Her Hem Hr Hf Hfd Hn. destruct (macros_build em) as [|s] eqn:Em; [reflexivity|]. exfalso.
  destruct (rtic_ok _ _ _ HF Her Hr) as (t & Ht & Htd & Hta & Hti).
  destruct (macros_ok _ _ _ (mk_incl F E HE) Hem Em) as (g & Hg & Hgd & Hga & _).
  assert (Hfg : f = g).
  { assert (Hin : In f (macro_enabled F E)) by (right; apply in_or_app; now right). destruct (Hga _ Hin); tauto. }
  assert (Hx : exists x, In x (macro_enabled F []) /\ x <> "default").
  { unfold impls in Hti. simpl in Hti.
    repeat (destruct Hti as [Hti | Hti];
      [injection Hti as <- <-;
       match goal with Ht : In ?t F |- _ =>
         let p := eval vm_compute in (match find (fun q => String.eqb (fst q) t) rtic_features with Some q => snd q | None => [] end) in
         match p with [?x] => exists x; split; [apply (asked F [] t p Ht); [unfold rtic_features; simpl; auto 12 | now left] | discriminate] end end|]).
    destruct Hti. }
  destruct Hx as (x & Hx & Hxd).
  assert (Hx' : In x (macro_enabled F E)).
  { destruct Hx as [Hx | Hx]; [now left|]. right. apply in_or_app. left. now rewrite app_nil_r in Hx. }
  destruct (Hga _ Hx') as [-> | ->]; [|tauto]. subst f. contradiction.
Qed.

(** *** Cases *)

Lemma env_ok fs e : NoDup e -> (forall f, In f fs -> In (variable f) e) ->
  forallb (fun v => match strip_prefix "CARGO_FEATURE_" v with Some _ => existsb (fun f => String.eqb v (variable f)) fs | None => true end) e = true ->
  cargo_env fs e.
Proof.
  intros Hn Hon H. split; auto. intros v r Hv ->. rewrite forallb_forall in H. specialize (H _ Hv). cbv beta in H. rewrite strip_app in H.
  apply existsb_exists in H. destruct H as (f & Hf & Ef). apply String.eqb_eq in Ef. eauto.
Qed.

Definition er7 : env := ["PATH"; "CARGO_FEATURE_THUMBV7_BACKEND"; "OUT_DIR"; "MY_BACKEND"].
Definition em7 : env := ["CARGO_FEATURE_CORTEX_M_BASEPRI"; "PATH"; "CARGO_FEATURE_DEFAULT"].

Ltac nodup := repeat (apply NoDup_cons; [simpl; intuition discriminate|]); apply NoDup_nil.

Theorem C88_thumbv7_case :
  known ["thumbv7-backend"] [] /\ cargo_env ["thumbv7-backend"] er7 /\ cargo_env (macro_enabled ["thumbv7-backend"] []) em7 /\
  rtic_build er7 = Sets "cortex-m-basepri" /\ macros_build em7 = Sets false /\
  library_modules "cortex-m-basepri" (flat_map slic_features ["thumbv7-backend"]) = [Basepri] /\
  macro_modules (macro_enabled ["thumbv7-backend"] []) false = [Basepri].
Proof.
  split; [split; intros x Hx; [destruct Hx as [<- | []]; simpl; auto 12 | destruct Hx]|].
  split; [apply env_ok; [unfold er7; nodup | intros f [<- | []]; vm_compute; auto | vm_compute; reflexivity]|].
  split; [apply env_ok; [unfold em7; nodup | intros f Hf; vm_compute in Hf; destruct Hf as [<- | [<- | []]]; vm_compute; auto | vm_compute; reflexivity]|].
  repeat split; vm_compute; reflexivity.
Qed.

(** Two backends with the same mechanism: the macro's script cannot tell, the library's refuses. *)
Definition er68 : env := ["CARGO_FEATURE_THUMBV6_BACKEND"; "CARGO_FEATURE_THUMBV8BASE_BACKEND"].
Theorem C88_two_same_mechanism_case :
  cargo_env ["thumbv6-backend"; "thumbv8base-backend"] er68 /\ rtic_build er68 = Fails /\
  macros_build ["CARGO_FEATURE_DEFAULT"; "CARGO_FEATURE_CORTEX_M_SOURCE_MASKING"] = Sets false.
Proof.
  split; [apply env_ok; [unfold er68; nodup | intros f [<- | [<- | []]]; vm_compute; auto | vm_compute; reflexivity]|].
  split; vm_compute; reflexivity.
Qed.

(** The two SLIC backends share one library implementation and are told apart by the features. *)
Theorem C88_slic_case :
  let er := ["CARGO_FEATURE_RISCV_MECALL_BACKEND"] in let em := ["CARGO_FEATURE_RISCV_MECALL"; "CARGO_FEATURE_DEFAULT"] in
  rtic_build er = Sets "riscv-slic" /\ macros_build em = Sets true /\
  library_modules "riscv-slic" (flat_map slic_features ["riscv-mecall-backend"]) = [SlicMecall] /\
  macro_modules (macro_enabled ["riscv-mecall-backend"] []) true = [SlicMecall] /\
  macros_build ("CARGO_FEATURE_RISCV_CLINT" :: em) = Fails.
Proof. repeat split; vm_compute; reflexivity. Qed.
