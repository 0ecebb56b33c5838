From Verif Require Import Base AppModel AppProofs SigModel SigSpec.
Set Implicit Arguments.
Open Scope string_scope. Open Scope list_scope. Open Scope nat_scope.

Lemma ieq_eq (a b : ident) : ieq a b = true <-> a = b.
Proof. unfold ieq. apply String.eqb_eq. Qed.

Lemma check_plain s al : check_fn_signature s al = true <-> exists asy, (asy = true -> al = true) /\ s = plain_fn asy (fs_inputs s) (fs_output s).
Proof.
  destruct s as [pr co asy ab un ge wh va ins out]. unfold check_fn_signature, plain_fn. cbn [fs_private fs_const fs_async fs_abi fs_unsafe fs_generics fs_where fs_variadic fs_inputs fs_output].
  rewrite !andb_true_iff, orb_true_iff, !negb_true_iff. split.
  - intros (((((((-> & ->) & A) & ->) & ->) & ->) & ->) & ->). exists asy. split; [|reflexivity]. intros ->. destruct A; [discriminate|assumption].
  - intros (asy' & A & E). injection E as -> -> -> -> -> -> -> ->. repeat split. destruct asy'; [right; now apply A|now left].
Qed.

Lemma same_two l a b : same_idents l [a; b] = true <-> exists x y, l = [mkSeg a x; mkSeg b y].
Proof.
  destruct l as [|[i1 a1] [|[i2 a2] [|? ?]]]; cbn [same_idents sg_id]; try (split; [intros H; rewrite ?andb_false_r in H; discriminate|intros (x & y & E); discriminate]).
  rewrite andb_true_r, andb_true_iff, !ieq_eq. split; [intros [-> ->]; now exists a1, a2|]. intros (x & y & E). now injection E as -> _ -> _.
Qed.

Lemma context_other t n : is_valid_context t [n; "Context"] Other = true <-> context_ty n t.
Proof.
  unfold context_ty. destruct t as [|?|q lead l|?|?]; cbn [is_valid_context]; try (split; [discriminate|intros (? & ? & ? & E); discriminate]).
  destruct q; [split; [discriminate|intros (? & ? & ? & E); discriminate]|]. cbn [allowed_lifetime]. rewrite andb_true_r, same_two. split.
  - intros (x & y & ->). now exists lead, x, y.
  - intros (ld & x & y & E). injection E as -> ->. now exists x, y.
Qed.

Lemma context_bounded t n : is_valid_context t [n; "Context"] SoftwareExternNotBottom = true <-> bounded_context_ty n t.
Proof.
  unfold bounded_context_ty. destruct t as [|?|q lead l|?|?]; cbn [is_valid_context]; try (split; [discriminate|intros (? & ? & ? & E & _); discriminate]).
  destruct q; [split; [discriminate|intros (? & ? & ? & E & _); discriminate]|]. rewrite andb_true_iff, same_two. split.
  - intros ((x & y & ->) & A). exists lead, x, y. split; [reflexivity|]. cbn in A. destruct y as [|[|[g|] [|? ?]]|]; try discriminate; auto.
    right; right. exists g. split; [|reflexivity]. intros ->. cbn in A. discriminate.
  - intros (ld & x & y & E & A). injection E as -> ->. split; [now exists x, y|]. cbn. destruct A as [-> | [-> | (g & G & ->)]]; try reflexivity.
    destruct (ieq g "static") eqn:D; [|reflexivity]. now apply ieq_eq in D.
Qed.

Lemma all_typed_some l r : all_typed l = Some r <-> l = map FTyped r.
Proof.
  revert r. induction l as [|[|t] l IH]; intros r; cbn [all_typed].
  - split; [intros [= <-]; reflexivity|]. destruct r; [reflexivity|discriminate].
  - split; [discriminate|]. destruct r; discriminate.
  - destruct (all_typed l) as [x|] eqn:E.
    + split; [intros [= <-]; cbn; f_equal; now apply IH|]. destruct r as [|? r]; [discriminate|]. cbn. intros [= -> H]. apply IH in H. congruence.
    + split; [discriminate|]. destruct r as [|? r]; [discriminate|]. cbn. intros [= -> H]. apply IH in H. congruence.
Qed.

Lemma inputs_some l n tt r : parse_inputs l n tt = Some (Some r) <-> exists t, is_valid_context t [n; "Context"] tt = true /\ l = FTyped t :: map FTyped r.
Proof.
  destruct l as [|[|t] l]; cbn [parse_inputs]; try (split; [discriminate|intros (? & _ & E); discriminate]).
  destruct (is_valid_context t [n; "Context"] tt) eqn:V.
  - split; [intros [= H]; exists t; split; [assumption|]; f_equal; now apply all_typed_some|]. intros (t' & _ & E). injection E as -> ->. f_equal. now apply all_typed_some.
  - split; [discriminate|]. intros (t' & V' & E). injection E as -> ->. congruence.
Qed.

Lemma extract_some t n : extract_name t = Some n <-> name_ty n t.
Proof.
  unfold name_ty. split.
  - destruct t as [|?|q [|] [|[i [| |]] [|? ?]]|?|?]; cbn; try discriminate. intros [= ->]. now exists q.
  - intros (q & ->). reflexivity.
Qed.
Lemma init_return_some r a b : type_is_init_return r = Some (a, b) <-> exists x y, name_ty a x /\ name_ty b y /\ r = RType (TyTuple [x; y]).
Proof.
  split.
  - destruct r as [|[|[|x [|y [|? ?]]]|? ? ?|?|?]]; cbn; try discriminate. destruct (extract_name x) eqn:E1; [|discriminate]. destruct (extract_name y) eqn:E2; [|discriminate].
    intros [= -> ->]. apply extract_some in E1, E2. now exists x, y.
  - intros (x & y & X & Y & ->). cbn. apply extract_some in X, Y. now rewrite X, Y.
Qed.
Lemma bottom_iff r : type_is_bottom r = true <-> r = RType TyNever.
Proof. destruct r as [|[| | | |]]; cbn; split; congruence. Qed.
Lemma unit_iff r : type_is_unit r = true <-> unit_out r.
Proof. unfold unit_out. destruct r as [|[|[|? ?]| | |]]; cbn; split; try (intros [?|?]; congruence); auto; congruence. Qed.

Lemma plain_inv s a args out : s = plain_fn a args out -> fs_inputs s = args /\ fs_output s = out /\ fs_async s = a.
Proof. intros ->. auto. Qed.

Lemma init_iff n s p : parse_init n s = Some p <-> exists sh lo, init_signature n s sh lo /\ p = mkFp [] false (Some (sh, lo)).
Proof.
  unfold parse_init, init_signature. split.
  - destruct (check_fn_signature s false) eqn:C; [|discriminate]. destruct (_ =? _); [|discriminate]. cbn [andb]. destruct (type_is_init_return (fs_output s)) as [[a b]|] eqn:R; [|discriminate].
    destruct (parse_inputs (fs_inputs s) n Other) as [[[|? ?]|]|] eqn:I; try discriminate. intros [= <-]. exists a, b. split; [|reflexivity].
    apply inputs_some in I as (t & V & I). apply context_other in V. apply init_return_some in R as (x & y & X & Y & R). exists t, x, y. split; [assumption|]. split; [assumption|]. split; [assumption|].
    apply check_plain in C as ([|] & A & E); [now specialize (A eq_refl)|]. cbn in I. congruence.
  - intros (sh & lo & (t & a & b & V & X & Y & ->) & ->). cbn [fs_inputs fs_output plain_fn List.length].
    replace (check_fn_signature _ _) with true by reflexivity. cbn [Nat.eqb andb]. replace (type_is_init_return _) with (Some (sh, lo)); [|symmetry; apply init_return_some; eauto].
    replace (parse_inputs _ _ _) with (Some (Some (@nil rty))); [reflexivity|]. symmetry. apply inputs_some. exists t. split; [now apply context_other|reflexivity].
Qed.

Lemma one_iff (b : bool) n s (p : fparsed) :
  (if check_fn_signature s false && (List.length (fs_inputs s) =? 1) && b then match parse_inputs (fs_inputs s) n Other with Some (Some []) => Some p | _ => None end else None) <> None <->
  b = true /\ exists t, context_ty n t /\ s = plain_fn false [FTyped t] (fs_output s).
Proof.
  split.
  - destruct (check_fn_signature s false) eqn:C; [|cbn; congruence]. destruct (_ =? _); [|cbn; congruence]. destruct b; [|cbn; congruence]. cbn [andb].
    destruct (parse_inputs (fs_inputs s) n Other) as [[[|? ?]|]|] eqn:I; try congruence. intros _. split; [reflexivity|]. apply inputs_some in I as (t & V & I). apply context_other in V. exists t. split; [assumption|].
    apply check_plain in C as ([|] & A & E); [now specialize (A eq_refl)|]. cbn in I. congruence.
  - intros (-> & t & V & E). rewrite E. cbn [fs_inputs fs_output plain_fn List.length]. replace (check_fn_signature _ _) with true by reflexivity. cbn [Nat.eqb andb].
    replace (parse_inputs _ _ _) with (Some (Some (@nil rty))); [discriminate|]. symmetry. apply inputs_some. exists t. split; [now apply context_other|reflexivity].
Qed.

Lemma idle_iff n s p : parse_idle_fn n s = Some p <-> idle_signature n s /\ p = mkFp [] true None.
Proof.
  unfold idle_signature. pose proof (@one_iff (type_is_bottom (fs_output s)) n s (mkFp [] true None)) as O. fold (parse_idle_fn n s) in O. split.
  - intros H. assert (P : p = mkFp [] true None). { unfold parse_idle_fn in H. destruct (_ && _); [|discriminate]. destruct (parse_inputs _ _ _) as [[[|? ?]|]|]; congruence. }
    split; [|assumption]. destruct (proj1 O) as (B & t & V & E); [congruence|]. apply bottom_iff in B. exists t. split; [assumption|]. congruence.
  - intros ((t & V & E) & ->). destruct (plain_inv E) as (_ & F & _). assert (X : parse_idle_fn n s <> None). { apply O. split; [apply bottom_iff; assumption|]. exists t. split; [assumption|]. congruence. }
    unfold parse_idle_fn in *. destruct (_ && _); [|congruence]. destruct (parse_inputs _ _ _) as [[[|? ?]|]|]; congruence.
Qed.
Lemma hard_iff n s p : parse_hard n s = Some p <-> hard_signature n s /\ p = mkFp [] false None.
Proof.
  unfold hard_signature. pose proof (@one_iff (type_is_unit (fs_output s)) n s (mkFp [] false None)) as O. fold (parse_hard n s) in O. split.
  - intros H. assert (P : p = mkFp [] false None). { unfold parse_hard in H. destruct (_ && _); [|discriminate]. destruct (parse_inputs _ _ _) as [[[|? ?]|]|]; congruence. }
    split; [|assumption]. destruct (proj1 O) as (B & t & V & E); [congruence|]. apply unit_iff in B. now exists t, (fs_output s).
  - intros ((t & out & V & U & E) & ->). destruct (plain_inv E) as (_ & F & _). assert (X : parse_hard n s <> None). { apply O. split; [apply unit_iff; congruence|]. exists t. split; [assumption|]. congruence. }
    unfold parse_hard in *. destruct (_ && _); [|congruence]. destruct (parse_inputs _ _ _) as [[[|? ?]|]|]; congruence.
Qed.
Lemma soft_iff f n s p : parse_soft f n s = Some p <-> exists ins d, soft_signature f n s ins d /\ p = mkFp ins d None.
Proof.
  unfold parse_soft, soft_signature. split.
  - destruct (check_fn_signature s true) eqn:C; [|discriminate]. destruct (fs_async s) eqn:AS; [|rewrite andb_false_r; discriminate]. rewrite andb_true_r. cbn [andb].
    destruct (type_is_unit (fs_output s) || type_is_bottom (fs_output s)) eqn:O; [|discriminate]. set (d := type_is_bottom (fs_output s)) in *.
    destruct (parse_inputs _ _ _) as [[ins|]|] eqn:I; try discriminate. intros [= <-]. exists ins, d. split; [|reflexivity]. apply inputs_some in I as (t & V & I).
    exists t, (fs_output s). split; [|split].
    + apply check_plain in C as (asy & A & E). destruct (plain_inv E) as (_ & _ & Ea). congruence.
    + destruct d eqn:D; [now apply bottom_iff|]. rewrite orb_false_r in O. now apply unit_iff.
    + destruct (f && negb d); [now apply context_bounded|now apply context_other].
  - intros (ins & d & (t & out & -> & O & V) & ->). cbn [fs_inputs fs_output fs_async plain_fn]. replace (check_fn_signature _ _) with true by reflexivity. rewrite andb_true_r. cbn [andb].
    assert (B : type_is_bottom out = d). { destruct d; [now apply bottom_iff|]. destruct O as [-> | ->]; reflexivity. } rewrite B.
    assert (U : type_is_unit out || d = true). { destruct d; [apply orb_true_r|]. rewrite orb_false_r. now apply unit_iff. } rewrite U.
    replace (parse_inputs _ _ _) with (Some (Some ins)); [reflexivity|]. symmetry. apply inputs_some. exists t. split; [|reflexivity]. destruct (f && negb d); [now apply context_bounded|now apply context_other].
Qed.
