(** Proofs about ArgsModel.v: the parser accepts exactly the grammar of ArgsSpec.v. *)
From Coq Require Import Permutation.
From Verif Require Import Base AppModel AppProofs AttrModel AttrSpec AttrProofs SigModel RefModel ArgsModel ArgsSpec.
Set Implicit Arguments.
Open Scope string_scope. Open Scope list_scope. Open Scope nat_scope.

(** * Paths *)
Lemma segs_eq s l : rd_segs (TId s :: l) = match l with TSep :: l' => match rd_segs l' with Some (r, l'') => Some (s :: r, l'') | None => None end | _ => Some ([s], l) end.
Proof. destruct l as [|[] l]; reflexivity. Qed.
Lemma segs_spec n : forall l r l', List.length l <= n -> rd_segs l = Some (r, l') -> exists t, segs_toks t r /\ l = t ++ l' /\ not_sep l'.
Proof.
  induction n as [|n IH]; intros l r l' L E.
  - destruct l; [discriminate|simpl in L; lia].
  - destruct l as [|t l]; [discriminate|]. destruct t; try discriminate. rewrite segs_eq in E.
    assert (B : Some ([s], l) = Some (r, l') -> not_sep l -> exists t, segs_toks t r /\ TId s :: l = t ++ l' /\ not_sep l') by (intros [= <- <-] N; exists [TId s]; split; [constructor|]; split; [reflexivity|exact N]).
    destruct l as [|c l]; [apply B; [exact E|exact I]|]. destruct c; try (apply B; [exact E|exact I]). clear B.
    destruct (rd_segs l) as [[r0 l0]|] eqn:R; [|discriminate]. injection E as <- <-. destruct (IH l r0 l0) as (t & H1 & -> & H3); [simpl in L; lia|exact R|]. exists (TId s :: TSep :: t). split; [now constructor|]. split; [reflexivity|exact H3].
Qed.
Lemma segs_total t r l : segs_toks t r -> not_sep l -> rd_segs (t ++ l) = Some (r, l).
Proof.
  intros H N. induction H as [s|s t r H IH]; cbn [List.app]; rewrite segs_eq.
  - destruct l as [|[] l]; try reflexivity. destruct N.
  - now rewrite IH.
Qed.
Lemma segs_ne t r : segs_toks t r -> exists s t', t = TId s :: t'.
Proof. intros H. destruct H; eauto. Qed.
Lemma path_spec l p l' : rd_path l = Some (p, l') -> exists t, path_toks t p /\ l = t ++ l' /\ not_sep l'.
Proof.
  intros E. assert (B : match rd_segs l with Some (r, l'') => Some ((false, r), l'') | None => None end = Some (p, l') -> exists t, path_toks t p /\ l = t ++ l' /\ not_sep l').
  { destruct (rd_segs l) as [[r l0]|] eqn:R; [|discriminate]. intros [= <- <-]. destruct (segs_spec _ (le_n _) R) as (t & H1 & H2 & H3). exists t. split; [now constructor|auto]. }
  destruct l as [|c l]; [exact (B E)|]. destruct c; try exact (B E). clear B. cbn [rd_path] in E. destruct (rd_segs l) as [[r l0]|] eqn:R; [|discriminate]. injection E as <- <-.
  destruct (segs_spec _ (le_n _) R) as (t & H1 & -> & H3). exists (TSep :: t). split; [now constructor|]. split; [reflexivity|exact H3].
Qed.
Lemma path_total t p l : path_toks t p -> not_sep l -> rd_path (t ++ l) = Some (p, l).
Proof.
  intros H N. destruct H as [t r H|t r H].
  - pose proof (@segs_total _ _ _ H N) as E. destruct (segs_ne H) as (s & t' & ->). cbn [List.app rd_path] in *. now rewrite E.
  - cbn [List.app rd_path]. now rewrite (@segs_total _ _ _ H N).
Qed.

(** * Dispatchers *)
Lemma single_path l s l' : rd_path l = Some ((false, [s]), l') -> l = TId s :: l' /\ not_sep l'.
Proof.
  intros E. apply path_spec in E as (t & H & -> & N). split; [|exact N]. inversion H as [? ? Hs|]; subst. inversion Hs as [|? ? ? X]; subst; [reflexivity|inversion X].
Qed.
Lemma disp_iff fuel : forall d l d', List.length l < fuel -> rd_disp fuel d l = Some d' <->
  exists r, disp_list l r /\ NoDup (map fst r) /\ (forall n, In n (map fst r) -> ~ In n (map fst d)) /\ d' = d ++ r.
Proof.
  induction fuel as [|fuel IH]; intros d l d' L; [lia|]. split.
  - destruct l as [|t l]; [intros [= <-]; exists []; rewrite app_nil_r; repeat split; try constructor; intros n []|]. set (L0 := t :: l) in *.
    intros E. change (rd_disp (S fuel) d L0) with (let (at_, l1) := p_attrs L0 in match rd_path l1 with Some ((false, [s]), l2) => if ihas d s then None else let d' := iinsert d s at_ in match l2 with [] => Some d' | TComma :: l3 => rd_disp fuel d' l3 | _ => None end | _ => None end) in E.
    destruct (p_attrs L0) as [at_ l1] eqn:A. apply attrs_spec in A as [A _]. destruct (rd_path l1) as [[[[] [|s [|]]] l2]|] eqn:P; try discriminate. apply single_path in P as [-> N].
    destruct (ihas d s) eqn:Hs; [discriminate|]. apply ihas_false in Hs. cbv zeta in E. rewrite (@iinsert_new _ d s at_ Hs) in E. rewrite A in L |- *. destruct l2 as [|c l2].
    + injection E as <-. exists [(s, at_)]. split; [apply DL_last|]. split; [repeat constructor; easy|]. split; [|reflexivity]. intros n [<-|[]]. exact Hs.
    + destruct c; try discriminate. apply IH in E as (r & H1 & H2 & H3 & ->); [|rewrite app_length in L; simpl in L; lia]. exists ((s, at_) :: r). split; [now apply DL_cons|].
      assert (F : forall n, In n (map fst r) -> ~ In n (map fst d) /\ n <> s). { intros n I0. specialize (H3 n I0). rewrite map_app, in_app_iff in H3. split; [tauto|]. intros ->. apply H3. right. now left. }
      split; [cbn; constructor; [intros I0; now apply F in I0|exact H2]|]. split; [|now rewrite <- app_assoc]. intros n [<-|I0]; [exact Hs|now apply F].
  - intros (r & H1 & H2 & H3 & ->). destruct H1 as [|at_ s|at_ s l r H1].
    + now rewrite app_nil_r.
    + assert (Hs : ~ In s (map fst d)) by (apply H3; now left).
      assert (E : rd_disp (S fuel) d (map TAttr at_ ++ [TId s]) = (let (at_, l1) := p_attrs (map TAttr at_ ++ [TId s]) in match rd_path l1 with Some ((false, [s]), l2) => if ihas d s then None else let d' := iinsert d s at_ in match l2 with [] => Some d' | TComma :: l3 => rd_disp fuel d' l3 | _ => None end | _ => None end)) by (destruct at_; reflexivity).
      rewrite E, attrs_total by exact I. cbn [rd_path rd_segs]. rewrite (proj2 (ihas_false _ _) Hs). cbv zeta. now rewrite iinsert_new.
    + assert (Hs : ~ In s (map fst d)) by (apply H3; now left).
      assert (E : rd_disp (S fuel) d (map TAttr at_ ++ TId s :: TComma :: l) = (let (at_, l1) := p_attrs (map TAttr at_ ++ TId s :: TComma :: l) in match rd_path l1 with Some ((false, [s]), l2) => if ihas d s then None else let d' := iinsert d s at_ in match l2 with [] => Some d' | TComma :: l3 => rd_disp fuel d' l3 | _ => None end | _ => None end)) by (destruct at_; reflexivity).
      rewrite E, attrs_total by exact I. cbn [rd_path rd_segs]. rewrite (proj2 (ihas_false _ _) Hs). cbv zeta. rewrite iinsert_new by exact Hs. apply IH; [rewrite app_length in L; simpl in L; lia|].
      inversion H2 as [|? ? N1 N2]; subst. exists r. split; [exact H1|]. split; [exact N2|]. split; [|now rewrite <- app_assoc]. intros n I0. rewrite map_app, in_app_iff. intros [I1|[<-|[]]]; [|exact (N1 I0)]. apply (H3 n); [now right|exact I1].
Qed.

(** * The loop *)
Definition one_app (bk : bool) (g : appst) (l : list tok) : option (appst * list tok) :=
  match l with
  | TId s :: TEq :: l1 =>
      if mem s (as_seen g) then None else
      let seen := set_insert (as_seen g) s in
      if ieq s "device" then
        match rd_path l1 with Some (p, l2) => Some (mkAs seen (Some p) (as_core g) (as_periph g) (as_disp g) (as_backend g), l2) | None => None end
      else if ieq s "core" then
        match l1 with TBool b :: l2 => Some (mkAs seen (as_device g) b (as_periph g) (as_disp g) (as_backend g), l2) | _ => None end
      else if ieq s "peripherals" then
        match l1 with TBool b :: l2 => Some (mkAs seen (as_device g) (as_core g) b (as_disp g) (as_backend g), l2) | _ => None end
      else if ieq s "dispatchers" then
        match l1 with
        | TGroup r :: l2 => match rd_disp (S (List.length r)) (as_disp g) r with Some d => Some (mkAs seen (as_device g) (as_core g) (as_periph g) d (as_backend g), l2) | None => None end
        | _ => None
        end
      else if ieq s "backend" then
        match l1 with TId i :: l2 => if bk then Some (mkAs seen (as_device g) (as_core g) (as_periph g) (as_disp g) (Some i), l2) else None | _ => None end
      else None
  | _ => None
  end.
Lemma app_eq fuel bk g l : rd_app (S fuel) bk g l = match l with [] => Some g | _ => match one_app bk g l with None => None | Some (g', []) => Some g' | Some (g', TComma :: l') => rd_app fuel bk g' l' | Some _ => None end end.
Proof.
  destruct l as [|t l]; [reflexivity|]. destruct t; try reflexivity. destruct l as [|t l]; [reflexivity|]. destruct t; try reflexivity.
  cbn [rd_app one_app]. destruct (mem s (as_seen g)); reflexivity.
Qed.
Definition aput (g : appst) (a : aarg) : appst :=
  let seen := as_seen g ++ [aname a] in
  match a with
  | ADevice p => mkAs seen (Some p) (as_core g) (as_periph g) (as_disp g) (as_backend g)
  | ACore v => mkAs seen (as_device g) v (as_periph g) (as_disp g) (as_backend g)
  | APeriph v => mkAs seen (as_device g) (as_core g) v (as_disp g) (as_backend g)
  | ADisp d => mkAs seen (as_device g) (as_core g) (as_periph g) d (as_backend g)
  | ABackend i => mkAs seen (as_device g) (as_core g) (as_periph g) (as_disp g) (Some i)
  end.
Lemma seen_put g a : as_seen (aput g a) = as_seen g ++ [aname a]. Proof. destruct a; reflexivity. Qed.
(** no dispatchers are known before [dispatchers] has been seen *)
Definition fresh (g : appst) : Prop := ~ In "dispatchers" (as_seen g) -> as_disp g = [].
Lemma fresh_put g a : fresh g -> fresh (aput g a).
Proof. intros F N. rewrite seen_put, in_app_iff in N. destruct a; cbn [aput as_disp]; try (apply F; tauto). destruct N. right. now left. Qed.
Lemma one_spec bk g l g' r : fresh g -> one_app bk g l = Some (g', r) -> exists t a, aarg_toks bk t a /\ l = t ++ r /\ ~ In (aname a) (as_seen g) /\ g' = aput g a.
Proof.
  intros F. destruct l as [|t l]; [discriminate|]. destruct t; try discriminate. destruct l as [|t l]; [discriminate|]. destruct t; try discriminate. cbn [one_app].
  destruct (mem s (as_seen g)) eqn:M; [discriminate|]. apply mem_false in M. unfold set_insert. rewrite (proj2 (mem_false _ _) M). cbv zeta.
  destruct (String.eqb_spec s "device") as [->|].
  { destruct (rd_path l) as [[p l2]|] eqn:P; [|discriminate]. intros [= <- <-]. apply path_spec in P as (t & H & -> & _). exists (TId "device" :: TEq :: t), (ADevice p). split; [now constructor|]. auto. }
  destruct (String.eqb_spec s "core") as [->|].
  { destruct l as [|t l]; [discriminate|]. destruct t; try discriminate. intros [= <- <-]. exists [TId "core"; TEq; TBool b], (ACore b). split; [constructor|auto]. }
  destruct (String.eqb_spec s "peripherals") as [->|].
  { destruct l as [|t l]; [discriminate|]. destruct t; try discriminate. intros [= <- <-]. exists [TId "peripherals"; TEq; TBool b], (APeriph b). split; [constructor|auto]. }
  destruct (String.eqb_spec s "dispatchers") as [->|].
  { destruct l as [|t l]; [discriminate|]. destruct t as [| | | | | | | | | | | |q]; try discriminate. rewrite (F M). destruct (rd_disp (S (List.length q)) [] q) as [d|] eqn:D; [|discriminate]. intros [= <- <-].
    apply disp_iff in D as (d0 & H1 & H2 & _ & ->); [|lia]. exists [TId "dispatchers"; TEq; TGroup q], (ADisp d0). split; [now constructor|auto]. }
  destruct (String.eqb_spec s "backend") as [->|]; [|discriminate].
  destruct l as [|t l]; [discriminate|]. destruct t; try discriminate. destruct bk; [|discriminate]. intros [= <- <-]. exists [TId "backend"; TEq; TId s], (ABackend s). split; [now constructor|auto].
Qed.
Lemma one_total bk g t a r : fresh g -> aarg_toks bk t a -> ~ In (aname a) (as_seen g) -> fits r -> one_app bk g (t ++ r) = Some (aput g a, r).
Proof.
  intros F H M R. assert (N : not_sep r) by (destruct r as [|[] r]; exact I || destruct R).
  destruct H as [l p H|v|v|l d H D|i ->]; cbn [aname List.app one_app] in M |- *; rewrite (proj2 (mem_false _ _) M); unfold set_insert; rewrite (proj2 (mem_false _ _) M); cbv zeta; cbn [String.eqb Ascii.eqb Bool.eqb]; try reflexivity.
  - now rewrite (@path_total _ _ _ H N).
  - rewrite (F M). rewrite (proj2 (@disp_iff _ [] l d (Nat.lt_succ_diag_r _))); [reflexivity|]. exists d. repeat split; auto.
Qed.
Lemma aarg_len bk t a : aarg_toks bk t a -> t <> []. Proof. intros H. destruct H; discriminate. Qed.
Lemma loop_app bk fuel : forall g l g', fresh g -> List.length l < fuel -> rd_app fuel bk g l = Some g' <->
  exists args, app_toks bk l args /\ NoDup (map aname args) /\ (forall a, In a args -> ~ In (aname a) (as_seen g)) /\ g' = fold_left aput args g.
Proof.
  induction fuel as [|fuel IH]; intros g l g' F L; [lia|]. rewrite app_eq. split.
  - destruct l as [|t l].
    { intros [= <-]. exists []. repeat split; try constructor. intros a []. }
    set (L0 := t :: l) in *. intros E. destruct (one_app bk g L0) as [[g1 r]|] eqn:O; [|discriminate]. apply one_spec in O as (t1 & a & Ha & -> & Hg & ->); [|exact F].
    destruct r as [|c l1].
    + injection E as <-. exists [a]. rewrite app_nil_r. split; [now apply AP_last|]. split; [repeat constructor; easy|]. split; [|reflexivity]. intros b [<-|[]]. auto.
    + destruct c; try discriminate. apply IH in E as (args & H1 & H2 & H3 & ->); [|now apply fresh_put|rewrite app_length in L; simpl in L; lia].
      exists (a :: args). split; [now apply AP_cons|].
      assert (Q : forall b, In b args -> ~ In (aname b) (as_seen g) /\ aname b <> aname a) by (intros b I0; specialize (H3 b I0); rewrite seen_put, in_app_iff in H3; split; [tauto|]; intros E; apply H3; right; now left).
      split; [|split; [|reflexivity]].
      * cbn [map]. constructor; [|exact H2]. intros I0. apply in_map_iff in I0 as (b & E & I0). now apply Q in I0.
      * intros b [<-|I0]; [auto|]. now apply Q.
  - intros (args & H1 & H2 & H3 & ->). destruct H1 as [|t a Ha|t a l r Ha Hl].
    + reflexivity.
    + assert (O : one_app bk g t = Some (aput g a, [])) by (rewrite <- (app_nil_r t) at 1; apply one_total; [exact F|exact Ha|apply H3; now left|exact I]). pose proof (aarg_len Ha). destruct t; [congruence|]. rewrite O. reflexivity.
    + assert (O : one_app bk g (t ++ TComma :: l) = Some (aput g a, TComma :: l)) by (apply one_total; [exact F|exact Ha|apply H3; now left|exact I]).
      assert (R : rd_app fuel bk (aput g a) l = Some (fold_left aput r (aput g a))).
      { apply IH; [now apply fresh_put|rewrite app_length in L; simpl in L; lia|]. exists r. split; [exact Hl|]. inversion H2 as [|? ? N1 N2]; subst. split; [exact N2|]. split; [|reflexivity]. intros b I0.
        rewrite seen_put, in_app_iff. intros [I1|[E|[]]]; [exact (H3 b (or_intror I0) I1)|]. apply N1. rewrite E. now apply in_map. }
      pose proof (aarg_len Ha). destruct (t ++ TComma :: l) eqn:Et; [destruct t; discriminate|]. rewrite O. exact R.
Qed.

(** * What the arguments say *)
Section Fold.
Context {X : Type} (get : appst -> X) (f : aarg -> option X).
Context (get_put : forall g a, get (aput g a) = match f a with Some v => v | None => get g end).
Lemma fold_none l : forall g, (forall a, In a l -> f a = None) -> get (fold_left aput l g) = get g.
Proof. induction l as [|a l IH]; intros g H; [reflexivity|]. cbn [fold_left]. rewrite IH by (intros b I0; apply H; now right). rewrite get_put, (H a); [reflexivity|now left]. Qed.
Context (same : forall a b v w, f a = Some v -> f b = Some w -> aname a = aname b).
Lemma fold_some l : forall g a v, NoDup (map aname l) -> In a l -> f a = Some v -> get (fold_left aput l g) = v.
Proof.
  induction l as [|c l IH]; intros g a v N I0 E; [destruct I0|]. cbn [fold_left]. inversion N as [|? ? N1 N2]; subst. destruct I0 as [->|I0].
  - rewrite fold_none; [now rewrite get_put, E|]. intros b Ib. destruct (f b) eqn:Eb; [|reflexivity]. destruct N1. rewrite (@same a b _ _ E Eb). now apply in_map.
  - now apply IH with a.
Qed.
End Fold.
Lemma parse_args_iff bk l a : parse_args bk l = Some a <-> exists args, app_toks bk l args /\ NoDup (map aname args) /\ says_args args a.
Proof.
  assert (F0 : fresh appst0) by (intros _; reflexivity). pose proof (fun g' => @loop_app bk (S (List.length l)) appst0 l g' F0 (Nat.lt_succ_diag_r _)) as P. unfold parse_args.
  assert (Q : forall args, NoDup (map aname args) -> forall a, says_args args a <-> (match as_device (fold_left aput args appst0) with Some d => Some (mkAA d (as_core (fold_left aput args appst0)) (as_periph (fold_left aput args appst0)) (as_disp (fold_left aput args appst0)) (as_backend (fold_left aput args appst0))) | None => None end) = Some a).
  { clear. intros args N a. set (g := fold_left aput args appst0).
    assert (D1 : forall p, In (ADevice p) args -> as_device g = Some p) by (intros p I0; apply (@fold_some _ as_device (fun a => match a with ADevice p => Some (Some p) | _ => None end)) with (a := ADevice p); auto; intros [] []; cbn; congruence).
    assert (D2 : (forall p, ~ In (ADevice p) args) -> as_device g = None) by (intros H; apply (@fold_none _ as_device (fun a => match a with ADevice p => Some (Some p) | _ => None end)); [intros h []; reflexivity|]; intros [] I0; try reflexivity; destruct (H _ I0)).
    assert (C1 : forall v, In (ACore v) args -> as_core g = v) by (intros p I0; apply (@fold_some _ as_core (fun a => match a with ACore p => Some p | _ => None end)) with (a := ACore p); auto; intros [] []; cbn; congruence).
    assert (C2 : (forall p, ~ In (ACore p) args) -> as_core g = true) by (intros H; apply (@fold_none _ as_core (fun a => match a with ACore p => Some p | _ => None end)); [intros h []; reflexivity|]; intros [] I0; try reflexivity; destruct (H _ I0)).
    assert (P1 : forall v, In (APeriph v) args -> as_periph g = v) by (intros p I0; apply (@fold_some _ as_periph (fun a => match a with APeriph p => Some p | _ => None end)) with (a := APeriph p); auto; intros [] []; cbn; congruence).
    assert (P2 : (forall p, ~ In (APeriph p) args) -> as_periph g = true) by (intros H; apply (@fold_none _ as_periph (fun a => match a with APeriph p => Some p | _ => None end)); [intros h []; reflexivity|]; intros [] I0; try reflexivity; destruct (H _ I0)).
    assert (L1 : forall v, In (ADisp v) args -> as_disp g = v) by (intros p I0; apply (@fold_some _ as_disp (fun a => match a with ADisp p => Some p | _ => None end)) with (a := ADisp p); auto; intros [] []; cbn; congruence).
    assert (L2 : (forall p, ~ In (ADisp p) args) -> as_disp g = []) by (intros H; apply (@fold_none _ as_disp (fun a => match a with ADisp p => Some p | _ => None end)); [intros h []; reflexivity|]; intros [] I0; try reflexivity; destruct (H _ I0)).
    assert (B1 : forall v, In (ABackend v) args -> as_backend g = Some v) by (intros p I0; apply (@fold_some _ as_backend (fun a => match a with ABackend p => Some (Some p) | _ => None end)) with (a := ABackend p); auto; intros [] []; cbn; congruence).
    assert (B2 : (forall p, ~ In (ABackend p) args) -> as_backend g = None) by (intros H; apply (@fold_none _ as_backend (fun a => match a with ABackend p => Some (Some p) | _ => None end)); [intros h []; reflexivity|]; intros [] I0; try reflexivity; destruct (H _ I0)).
    clearbody g. split.
    - intros (H1 & H2 & H3 & H4 & H5 & H6 & H7 & H8 & H9). rewrite (D1 _ H1). destruct a as [d c p di bk]. cbn [aa_device aa_core aa_periph aa_disp aa_backend] in *. f_equal. f_equal.
      + destruct (in_dec (fun x y : bool => Bool.bool_dec x y) true (flat_map (fun a => match a with ACore v => [v] | _ => [] end) args)) as [I0|J].
        * apply in_flat_map in I0 as ([] & I1 & I2); try destruct I2; subst; [|contradiction]. now rewrite (C1 _ I1), (H2 _ I1).
        * destruct (in_dec (fun x y : bool => Bool.bool_dec x y) false (flat_map (fun a => match a with ACore v => [v] | _ => [] end) args)) as [I0|K].
          -- apply in_flat_map in I0 as ([] & I1 & I2); try destruct I2; subst; [|contradiction]. now rewrite (C1 _ I1), (H2 _ I1).
          -- assert (Z : forall v, ~ In (ACore v) args) by (intros v I0; destruct v; [apply J|apply K]; apply in_flat_map; eexists; (split; [exact I0|now left])). now rewrite (C2 Z), (H3 Z).
      + destruct (in_dec (fun x y : bool => Bool.bool_dec x y) true (flat_map (fun a => match a with APeriph v => [v] | _ => [] end) args)) as [I0|J].
        * apply in_flat_map in I0 as ([] & I1 & I2); try destruct I2; subst; [|contradiction]. now rewrite (P1 _ I1), (H4 _ I1).
        * destruct (in_dec (fun x y : bool => Bool.bool_dec x y) false (flat_map (fun a => match a with APeriph v => [v] | _ => [] end) args)) as [I0|K].
          -- apply in_flat_map in I0 as ([] & I1 & I2); try destruct I2; subst; [|contradiction]. now rewrite (P1 _ I1), (H4 _ I1).
          -- assert (Z : forall v, ~ In (APeriph v) args) by (intros v I0; destruct v; [apply J|apply K]; apply in_flat_map; eexists; (split; [exact I0|now left])). now rewrite (P2 Z), (H5 Z).
      + destruct (flat_map (fun a => match a with ADisp v => [v] | _ => [] end) args) as [|v0 vs] eqn:E.
        * assert (Z : forall v, ~ In (ADisp v) args) by (intros v I0; assert (Y : In v []) by (rewrite <- E; apply in_flat_map; eexists; split; [exact I0|now left]); destruct Y). now rewrite (L2 Z), (H7 Z).
        * assert (Y : In v0 (v0 :: vs)) by now left. rewrite <- E in Y. apply in_flat_map in Y as ([] & I1 & I2); try destruct I2; subst; [|contradiction]. now rewrite (L1 _ I1), (H6 _ I1).
      + destruct (flat_map (fun a => match a with ABackend v => [v] | _ => [] end) args) as [|v0 vs] eqn:E.
        * assert (Z : forall v, ~ In (ABackend v) args) by (intros v I0; assert (Y : In v []) by (rewrite <- E; apply in_flat_map; eexists; split; [exact I0|now left]); destruct Y). now rewrite (B2 Z), (H9 Z).
        * assert (Y : In v0 (v0 :: vs)) by now left. rewrite <- E in Y. apply in_flat_map in Y as ([] & I1 & I2); try destruct I2; subst; [|contradiction]. now rewrite (B1 _ I1), (H8 _ I1).
    - destruct (flat_map (fun a => match a with ADevice v => [v] | _ => [] end) args) as [|v0 vs] eqn:E.
      + assert (Z : forall v, ~ In (ADevice v) args) by (intros v I0; assert (Y : In v []) by (rewrite <- E; apply in_flat_map; eexists; split; [exact I0|now left]); destruct Y). rewrite (D2 Z). discriminate.
      + assert (Y : In v0 (v0 :: vs)) by now left. rewrite <- E in Y. apply in_flat_map in Y as ([] & I1 & I2); try destruct I2; subst; [|contradiction]. rewrite (D1 _ I1). intros [= <-]. unfold says_args. cbn [aa_device aa_core aa_periph aa_disp aa_backend]. repeat split; auto. }
  split.
  - destruct (rd_app _ bk appst0 l) as [g|] eqn:R; [|discriminate]. intros E. destruct (proj1 (P g) eq_refl) as (args & H1 & H2 & _ & ->). exists args. split; [exact H1|]. split; [exact H2|]. apply Q; [exact H2|exact E].
  - intros (args & H1 & H2 & H3). apply Q in H3; [|exact H2]. assert (R : rd_app (S (List.length l)) bk appst0 l = Some (fold_left aput args appst0)) by (apply P; exists args; repeat split; auto). rewrite R. exact H3.
Qed.

(** * One way to read *)
Lemma segs_no t r : segs_toks t r -> ~ In TComma t.
Proof. intros H. induction H; simpl; intuition discriminate. Qed.
Lemma aarg_no_comma bk t a : aarg_toks bk t a -> ~ In TComma t.
Proof.
  intros H. destruct H as [l p H| | |l d H D|i _]; simpl; try intuition discriminate. intros [X|[X|X]]; try discriminate. destruct H as [l r H|l r H]; [exact (segs_no H X)|]. destruct X as [X|X]; [discriminate|exact (segs_no H X)].
Qed.
Lemma path_det t p p' : path_toks t p -> path_toks t p' -> p = p'.
Proof. intros H H'. pose proof (@path_total _ _ [] H I) as E. pose proof (@path_total _ _ [] H' I) as E'. congruence. Qed.
Lemma disp_det l d d' : disp_list l d -> NoDup (map fst d) -> disp_list l d' -> NoDup (map fst d') -> d = d'.
Proof.
  intros H N H' N'. assert (E : rd_disp (S (List.length l)) [] l = Some d) by (apply disp_iff; [lia|]; exists d; repeat split; auto). assert (E' : rd_disp (S (List.length l)) [] l = Some d') by (apply disp_iff; [lia|]; exists d'; repeat split; auto). congruence.
Qed.
Lemma aarg_det bk t a a' : aarg_toks bk t a -> aarg_toks bk t a' -> a = a'.
Proof.
  intros H H'. destruct H as [l p H| | |l d H D|i E]; inversion H'; subst; try reflexivity; f_equal.
  - eauto using path_det.
  - eauto using disp_det.
Qed.
Lemma app_det bk l args args' : app_toks bk l args -> app_toks bk l args' -> args = args'.
Proof.
  intros H. revert args'. induction H as [|t a Ha|t a l r Ha Hl IH]; intros args' H'.
  - inversion H' as [|? ? X|? ? ? ? X]; subst; [reflexivity|destruct (aarg_len X eq_refl)|]. destruct t; discriminate.
  - inversion H' as [E|? ? X|t' ? l' ? X Y E]; subst; [destruct (aarg_len Ha eq_refl)|f_equal; eauto using aarg_det|]. destruct (aarg_no_comma Ha). apply in_app_iff. right. now left.
  - inversion H' as [E|t' ? X E|t' ? l' ? X Y E]; subst.
    + destruct t; discriminate.
    + destruct (aarg_no_comma X). apply in_app_iff. right. now left.
    + apply split_comma in E as [-> ->]; [|exact (aarg_no_comma X)|exact (aarg_no_comma Ha)]. f_equal; [eauto using aarg_det|auto].
Qed.
