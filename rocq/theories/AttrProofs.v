(** Proofs about AttrModel.v: the parser accepts exactly the grammar of AttrSpec.v. *)
From Coq Require Import Permutation.
From Verif Require Import Base AppModel AppProofs AttrModel AttrSpec.
Set Implicit Arguments.
Open Scope string_scope. Open Scope list_scope. Open Scope nat_scope.

Definition plain (l : list tok) : Prop := match l with TAttr _ :: _ => False | _ => True end.
Lemma attrs_spec l a r : p_attrs l = (a, r) -> l = map TAttr a ++ r /\ plain r.
Proof.
  revert a r. induction l as [|t l IH]; simpl; intros a r E; [injection E as <- <-; split; [reflexivity|exact I]|].
  destruct t; try (injection E as <- <-; split; [reflexivity|exact I]). destruct (p_attrs l) as [x y]. injection E as <- <-. destruct (IH x y eq_refl) as [-> P]. split; [reflexivity|exact P].
Qed.
Lemma attrs_total a r : plain r -> p_attrs (map TAttr a ++ r) = (a, r).
Proof. intros P. induction a as [|x a IH]; simpl; [destruct r as [|[] r]; try reflexivity; destruct P|]. now rewrite IH. Qed.
Lemma name_spec l s r : p_name l = Some (s, r) <-> l = TId s :: r /\ match r with TSep :: _ => False | _ => True end.
Proof.
  split.
  - destruct l as [|[] l]; try discriminate. intros E. destruct l as [|[] l]; simpl in E; try discriminate; injection E as <- <-; auto.
  - intros [-> H]. destruct r as [|[] r]; try reflexivity. destruct H.
Qed.

Definition elem (l : list tok) : option (ident * access * list tok) :=
  let l1 := snd (p_attrs l) in
  match l1 with
  | TAmp :: TMut :: _ => None
  | TAmp :: l2 => match p_name (snd (p_attrs l2)) with Some (s, l3) => Some (s, SharedRef, l3) | None => None end
  | _ => match p_name l1 with Some (s, l3) => Some (s, Exclusive, l3) | None => None end
  end.
Definition not_sep (r : list tok) : Prop := match r with TSep :: _ => False | _ => True end.
Lemma elem_spec l s a r : elem l = Some (s, a, r) -> exists e, shared_elem e s a /\ l = e ++ r.
Proof.
  unfold elem. destruct (p_attrs l) as [at_ l1] eqn:E. apply attrs_spec in E as [-> P]. cbn [snd]. intros H.
  assert (X : forall o, (match p_name l1 with Some (s, l3) => Some (s, Exclusive, l3) | None => None end) = o -> o = Some (s, a, r) -> exists e, shared_elem e s a /\ map TAttr at_ ++ l1 = e ++ r).
  { intros o <- E. destruct (p_name l1) as [[s' l3]|] eqn:N; [|discriminate]. injection E as <- <- <-. apply name_spec in N as [-> _]. exists (map TAttr at_ ++ [TId s']). split; [constructor|]. now rewrite <- app_assoc. }
  destruct l1 as [|t l2]; [discriminate|]. destruct t; try exact (X _ eq_refl H). clear X.
  assert (Y : match p_name (snd (p_attrs l2)) with Some (s, l3) => Some (s, SharedRef, l3) | None => None end = Some (s, a, r)) by (destruct l2 as [|[] l2]; try exact H; discriminate H).
  clear H. destruct (p_attrs l2) as [at2 l3] eqn:E. apply attrs_spec in E as [-> _]. cbn [snd] in Y. destruct (p_name l3) as [[s' l4]|] eqn:N; [|discriminate]. injection Y as <- <- <-. apply name_spec in N as [-> _].
  exists (map TAttr at_ ++ TAmp :: map TAttr at2 ++ [TId s']). split; [constructor|]. rewrite <- app_assoc. cbn. rewrite <- app_assoc. reflexivity.
Qed.
Lemma elem_total e s a r : shared_elem e s a -> not_sep r -> elem (e ++ r) = Some (s, a, r).
Proof.
  intros H N. destruct H as [at_ s|at_ at2 s]; unfold elem.
  - rewrite <- app_assoc, attrs_total by exact I. cbn [snd List.app]. rewrite (proj2 (@name_spec (TId s :: r) s r)); auto.
  - rewrite <- app_assoc. cbn [List.app]. rewrite attrs_total by exact I. cbn [snd]. rewrite <- app_assoc. cbn [List.app].
    assert (E : p_attrs (map TAttr at2 ++ TId s :: r) = (at2, TId s :: r)) by now apply attrs_total. rewrite E. cbn [snd]. rewrite (proj2 (@name_spec (TId s :: r) s r)); auto.
    destruct at2; reflexivity.
Qed.
Lemma elem_len e s a : shared_elem e s a -> e <> [].
Proof. intros H. destruct H as [at_ s|at_ at2 s]; destruct at_; discriminate. Qed.

Lemma shared_iff fuel l r : List.length l < fuel -> rd_shared fuel l = Some r <-> shared_list l r.
Proof.
  revert l r. induction fuel as [|fuel IH]; intros l r L; [lia|].
  assert (Eq : rd_shared (S fuel) l = match l with [] => Some [] | _ => match elem l with None => None | Some (s, a, l3) => match l3 with [] => Some [(s, a)] | TComma :: l4 => match rd_shared fuel l4 with Some r => Some ((s, a) :: r) | None => None end | _ => None end end end) by reflexivity.
  rewrite Eq. clear Eq. split.
  - destruct l as [|t l]; [intros [= <-]; constructor|]. set (L0 := t :: l) in *. intros E. destruct (elem L0) as [[[s a] l3]|] eqn:El; [|discriminate]. apply elem_spec in El as (e & He & El). rewrite El in *.
    destruct l3 as [|t3 l3]; [injection E as <-; rewrite app_nil_r; now constructor|]. destruct t3; try discriminate. destruct (rd_shared fuel l3) as [r'|] eqn:R; [|discriminate]. injection E as <-. constructor; [exact He|].
    apply IH; [|exact R]. rewrite app_length in L. simpl in L. lia.
  - intros H. destruct H as [|e s a He|e s a l r He Hl]; [reflexivity| |].
    + pose proof (elem_len He) as N. assert (Ee : elem e = Some (s, a, [])) by (rewrite <- (app_nil_r e) at 1; exact (@elem_total _ _ _ [] He I)). rewrite Ee. destruct e; [congruence|reflexivity].
    + pose proof (elem_len He) as N. rewrite (@elem_total _ _ _ (TComma :: l) He I). rewrite (proj2 (IH l r ltac:(rewrite app_length in L; simpl in L; lia)) Hl). destruct e; [congruence|reflexivity].
Qed.

Lemma others_nil a : other_attrs a = [] <-> ~ In AOther a.
Proof.
  split.
  - intros E I0. assert (In AOther (other_attrs a)) by (apply filter_In; auto). rewrite E in H. destruct H.
  - intros N. unfold other_attrs. destruct (filter _ a) as [|x l] eqn:E; [reflexivity|]. assert (H : In x (x :: l)) by now left. rewrite <- E in H. apply filter_In in H as [H1 H2]. destruct x; try discriminate. contradiction.
Qed.
Definition lelem (at_ : list attr) (l2 : list tok) : option (tlocal * list attr * list tok) :=
  match l2 with
  | TColon :: TTy ok :: TEq :: TExpr :: l3 => if ok then Some (Declared, keep_attrs at_, match l3 with TComma :: l4 => l4 | _ => l3 end) else None
  | TColon :: _ => None
  | TEq :: _ => None
  | TComma :: l3 => match other_attrs at_ with [] => Some (External, [], l3) | _ => None end
  | [] => Some (External, [], [])
  | _ => None
  end.
Lemma lelem_spec at_ l2 k ats l3 : lelem at_ l2 = Some (k, ats, l3) ->
  (k = Declared /\ ats = keep_attrs at_ /\ exists comma : bool, l2 = TColon :: TTy true :: TEq :: TExpr :: (if comma then TComma :: l3 else l3)) \/
  (k = External /\ ats = [] /\ ~ In AOther at_ /\ l2 = TComma :: l3) \/ (k = External /\ ats = [] /\ l2 = [] /\ l3 = []).
Proof.
  unfold lelem. intros E. destruct l2 as [|t l2]; [injection E as <- <- <-; right; right; auto|]. destruct t; try discriminate.
  - destruct (other_attrs at_) eqn:O; [|discriminate]. injection E as <- <- <-. right. left. repeat split. now apply others_nil.
  - left. destruct l2 as [|t1 l2]; [discriminate|]. destruct t1; try discriminate. destruct l2 as [|t2 l2]; [discriminate|]. destruct t2; try discriminate. destruct l2 as [|t3 l2]; [discriminate|]. destruct t3; try discriminate. destruct supported; [|discriminate].
    injection E as <- <- <-. repeat split. destruct l2 as [|[] l2]; try (exists false; reflexivity). exists true. reflexivity.
Qed.
Lemma local_head l r : local_list l r -> match l with TComma :: _ => False | TSep :: _ => False | _ => True end.
Proof. intros H. destruct H as [|at_ s c l r H|at_ s l r N H|at_ s]; [exact I|..]; destruct at_; exact I. Qed.

Lemma local_iff fuel l r : List.length l < fuel -> rd_local fuel l = Some r <-> local_list l r.
Proof.
  revert l r. induction fuel as [|fuel IH]; intros l r L; [lia|].
  assert (Eq : rd_local (S fuel) l = match l with [] => Some [] | _ => let (at_, l1) := p_attrs l in match p_name l1 with None => None | Some (s, l2) =>
     match lelem at_ l2 with None => None | Some (k, ats, l3) => match rd_local fuel l3 with Some r => Some ((s, k, ats) :: r) | None => None end end end end) by reflexivity.
  rewrite Eq. clear Eq. split.
  - destruct l as [|t l]; [intros [= <-]; constructor|]. set (L0 := t :: l) in *. intros E. destruct (p_attrs L0) as [at_ l1] eqn:A. apply attrs_spec in A as [A _]. destruct (p_name l1) as [[s l2]|] eqn:N; [|discriminate]. apply name_spec in N as [-> _].
    destruct (lelem at_ l2) as [[[k ats] l3]|] eqn:El; [|discriminate]. destruct (rd_local fuel l3) as [r'|] eqn:R; [|discriminate]. injection E as <-. rewrite A in *. clear A L0.
    rewrite app_length in L. apply lelem_spec in El as [(-> & -> & comma & ->)|[(-> & -> & O & ->)|(-> & -> & -> & ->)]].
    + apply LL_declared. apply IH; [|exact R]. destruct comma; simpl in L; lia.
    + apply LL_field; [exact O|]. apply IH; [|exact R]. simpl in L; lia.
    + destruct fuel; [simpl in L; lia|]. injection R as <-. apply LL_last.
  - intros H. destruct H as [|at_ s c l r H|at_ s l r O H|at_ s]; [reflexivity|..]; (match goal with |- match ?x with _ => _ end = _ => destruct x eqn:E0; [destruct at_; discriminate|rewrite <- E0 in L |- *; clear E0] end); rewrite attrs_total by exact I; cbn [p_name].
    + pose proof (local_head H) as Hd. rewrite app_length in L. assert (R : rd_local fuel l = Some r) by (apply IH; [destruct c; simpl in L; lia|exact H]).
      assert (Ec : lelem at_ (TColon :: TTy true :: TEq :: TExpr :: (if c then TComma :: l else l)) = Some (Declared, keep_attrs at_, l)) by (destruct c; [reflexivity|]; destruct l as [|[] l]; try reflexivity; destruct Hd).
      rewrite Ec, R. reflexivity.
    + cbn [lelem]. rewrite (proj2 (others_nil _) O). rewrite app_length in L. now rewrite (proj2 (IH l r ltac:(simpl in L; lia)) H).
    + cbn [lelem]. destruct fuel; [rewrite app_length in L; simpl in L; lia|]. reflexivity.
Qed.

(** * The loops over the arguments *)
Definition put (g : given) (a : arg) : given :=
  match a with
  | GBinds i => mkG (Some i) (g_prio g) (g_shared g) (g_local g) (g_local_task g)
  | GPrio v => mkG (g_binds g) (Some v) (g_shared g) (g_local g) (g_local_task g)
  | GShared x => mkG (g_binds g) (g_prio g) (Some x) (g_local g) (g_local_task g)
  | GLocal x => mkG (g_binds g) (g_prio g) (g_shared g) (Some x) (g_local_task g)
  | GLocalTask b => mkG (g_binds g) (g_prio g) (g_shared g) (g_local g) (Some b)
  end.
Definition has (g : given) (a : arg) : bool :=
  match a with
  | GBinds _ => is_some (g_binds g) | GPrio _ => is_some (g_prio g) | GShared _ => is_some (g_shared g)
  | GLocal _ => is_some (g_local g) | GLocalTask _ => is_some (g_local_task g)
  end.
Lemma has_put g a b : has (put g a) b = if ieq (name_of a) (name_of b) then true else has g b.
Proof. destruct a, b; reflexivity. Qed.

Definition fits (r : list tok) : Prop := match r with [] => True | TComma :: _ => True | _ => False end.
Section Loop.
Context (trail : bool) (allowed : arg -> Prop) (one : given -> list tok -> option (given * list tok)).
Context (one_spec : forall g l g' r, one g l = Some (g', r) -> exists t a, arg_toks t a /\ allowed a /\ l = t ++ r /\ has g a = false /\ g' = put g a).
Context (one_total : forall g t a r, arg_toks t a -> allowed a -> has g a = false -> fits r -> one g (t ++ r) = Some (put g a, r)).
Fixpoint loop (fuel : nat) (g : given) (l : list tok) : option given :=
  match fuel with
  | 0 => None
  | S fuel =>
      match l with
      | [] => if trail then Some g else None
      | _ => match one g l with
             | None => None
             | Some (g', []) => Some g'
             | Some (g', TComma :: l') => loop fuel g' l'
             | Some _ => None
             end
      end
  end.
Lemma arg_len t a : arg_toks t a -> t <> []. Proof. intros H. destruct H; discriminate. Qed.
Lemma loop_iff fuel g l g' : List.length l < fuel -> loop fuel g l = Some g' <->
  exists args, args_toks trail l args /\ NoDup (map name_of args) /\ (forall a, In a args -> has g a = false /\ allowed a) /\ g' = fold_left put args g.
Proof.
  revert g l. induction fuel as [|fuel IH]; intros g l L; [lia|]. cbn [loop]. split.
  - destruct l as [|t l].
    { destruct trail eqn:T; [|discriminate]. intros [= <-]. exists []. split; [now constructor|]. split; [constructor|]. split; [easy|reflexivity]. }
    set (L0 := t :: l) in *. intros E. destruct (one g L0) as [[g1 r]|] eqn:O; [|discriminate]. apply one_spec in O as (t1 & a & Ha & Al & -> & Hg & ->).
    destruct r as [|c l1].
    + injection E as <-. exists [a]. rewrite app_nil_r. split; [now apply AA_last|]. split; [repeat constructor; easy|]. split; [|reflexivity]. intros b [<-|[]]. auto.
    + destruct c; try discriminate. apply IH in E as (args & H1 & H2 & H3 & ->); [|rewrite app_length in L; simpl in L; lia].
      exists (a :: args). split; [now apply AA_cons|]. split; [|split].
      * cbn [map]. constructor; [|exact H2]. intros I0. apply in_map_iff in I0 as (b & E & I0). destruct (H3 b I0) as [H3' _]. rewrite has_put, E, String.eqb_refl in H3'. discriminate.
      * intros b [<-|I0]; [auto|]. destruct (H3 b I0) as [Q1 Q2]. split; [|exact Q2]. rewrite has_put in Q1. destruct (ieq _ _); [discriminate|exact Q1].
      * reflexivity.
  - intros (args & H1 & H2 & H3 & ->). destruct H1 as [T|t a Ha|t a l r Ha Hl].
    + rewrite T. reflexivity.
    + destruct (H3 a (or_introl eq_refl)) as [Q1 Q2]. assert (O : one g t = Some (put g a, [])) by (rewrite <- (app_nil_r t); now apply one_total). pose proof (arg_len Ha). destruct t; [congruence|]. rewrite O. reflexivity.
    + destruct (H3 a (or_introl eq_refl)) as [Q1 Q2]. assert (O : one g (t ++ TComma :: l) = Some (put g a, TComma :: l)) by now apply one_total.
      assert (R : loop fuel (put g a) l = Some (fold_left put r (put g a))).
      { apply IH; [rewrite app_length in L; simpl in L; lia|]. exists r. split; [exact Hl|]. inversion H2 as [|? ? N1 N2]; subst. split; [exact N2|]. split; [|reflexivity]. intros b I0. destruct (H3 b (or_intror I0)) as [P1 P2]. split; [|exact P2].
        rewrite has_put, P1. destruct (String.eqb_spec (name_of a) (name_of b)) as [E|]; [|reflexivity]. exfalso. apply N1. rewrite E. now apply in_map. }
      pose proof (arg_len Ha). destruct (t ++ TComma :: l) eqn:Et; [destruct t; discriminate|]. rewrite O. exact R.
Qed.
End Loop.

Definition one_task (g : given) (l : list tok) : option (given * list tok) :=
  match l with
  | TId s :: l1 =>
      if ieq s "local_task" then
        if is_some (g_local_task g) then None else
        match l1 with
        | TEq :: TBool b :: l2 => Some (mkG (g_binds g) (g_prio g) (g_shared g) (g_local g) (Some b), l2)
        | TEq :: _ => None
        | _ => Some (mkG (g_binds g) (g_prio g) (g_shared g) (g_local g) (Some true), l1)
        end
      else
        match l1 with
        | TEq :: l2 =>
            if ieq s "binds" then
              if is_some (g_binds g) then None else
              match l2 with TId i :: l3 => Some (mkG (Some i) (g_prio g) (g_shared g) (g_local g) (g_local_task g), l3) | _ => None end
            else if ieq s "priority" then
              if is_some (g_prio g) then None else
              match l2 with TInt v suffix :: l3 => if suffix || (255 <? v) then None else Some (mkG (g_binds g) (Some v) (g_shared g) (g_local g) (g_local_task g), l3) | _ => None end
            else if ieq s "shared" then
              if is_some (g_shared g) then None else
              match l2 with
              | TGroup r :: l3 => match rd_shared (S (List.length r)) r with Some x => Some (mkG (g_binds g) (g_prio g) (Some x) (g_local g) (g_local_task g), l3) | None => None end
              | _ => None
              end
            else if ieq s "local" then
              if is_some (g_local g) then None else
              match l2 with
              | TGroup r :: l3 => match rd_local (S (List.length r)) r with Some x => Some (mkG (g_binds g) (g_prio g) (g_shared g) (Some x) (g_local_task g), l3) | None => None end
              | _ => None
              end
            else None
        | _ => None
        end
  | _ => None
  end.
Definition one_idle (init : bool) (g : given) (l : list tok) : option (given * list tok) :=
  match l with
  | TId s :: TEq :: l2 =>
      if ieq s "shared" && negb init then
        if is_some (g_shared g) then None else
        match l2 with
        | TGroup r :: l3 => match rd_shared (S (List.length r)) r with Some x => Some (mkG (g_binds g) (g_prio g) (Some x) (g_local g) (g_local_task g), l3) | None => None end
        | _ => None
        end
      else if ieq s "local" then
        if is_some (g_local g) then None else
        match l2 with
        | TGroup r :: l3 => match rd_local (S (List.length r)) r with Some x => Some (mkG (g_binds g) (g_prio g) (g_shared g) (Some x) (g_local_task g), l3) | None => None end
        | _ => None
        end
      else None
  | _ => None
  end.
Lemma task_loop fuel g l : rd_task fuel g l = loop true one_task fuel g l.
Proof.
  revert g l. induction fuel as [|fuel IH]; intros g l; [reflexivity|]. destruct l as [|t l]; [reflexivity|]. destruct t; try reflexivity.
  cbn [rd_task loop]. change (match one_task g (TId s :: l) with Some (g', []) => Some g' | Some (g', TComma :: l') => rd_task fuel g' l' | Some (g', _ :: _) => None | None => None end = match one_task g (TId s :: l) with Some (g', []) => Some g' | Some (g', TComma :: l') => loop true one_task fuel g' l' | Some (g', _ :: _) => None | None => None end).
  destruct (one_task g (TId s :: l)) as [[g' [|[] l']]|]; auto.
Qed.
Lemma idle_loop fuel init g l : rd_idle fuel init g l = loop false (one_idle init) fuel g l.
Proof.
  revert g l. induction fuel as [|fuel IH]; intros g l; [reflexivity|]. destruct l as [|t l]; [reflexivity|]. destruct t; try reflexivity. destruct l as [|t l]; [reflexivity|]. destruct t; try reflexivity.
  cbn [rd_idle loop]. change (match one_idle init g (TId s :: TEq :: l) with Some (g', []) => Some g' | Some (g', TComma :: l') => rd_idle fuel init g' l' | Some (g', _ :: _) => None | None => None end = match one_idle init g (TId s :: TEq :: l) with Some (g', []) => Some g' | Some (g', TComma :: l') => loop false (one_idle init) fuel g' l' | Some (g', _ :: _) => None | None => None end).
  destruct (one_idle init g (TId s :: TEq :: l)) as [[g' [|[] l']]|]; auto.
Qed.

Lemma one_task_spec g l g' r : one_task g l = Some (g', r) -> exists t a, arg_toks t a /\ True /\ l = t ++ r /\ has g a = false /\ g' = put g a.
Proof.
  intros E. destruct l as [|t l]; [discriminate|]. destruct t; try discriminate. cbn [one_task] in E.
  destruct (String.eqb_spec s "local_task") as [->|_].
  { destruct (is_some (g_local_task g)) eqn:H; [discriminate|].
    assert (X : Some (mkG (g_binds g) (g_prio g) (g_shared g) (g_local g) (Some true), l) = Some (g', r) -> exists t a, arg_toks t a /\ True /\ TId "local_task" :: l = t ++ r /\ has g a = false /\ g' = put g a).
    { intros [= <- <-]. exists [TId "local_task"], (GLocalTask true). repeat split; auto. constructor. }
    destruct l as [|t l]; [exact (X E)|]. destruct t; try exact (X E). clear X. destruct l as [|t l]; [discriminate|]. destruct t; try discriminate. injection E as <- <-.
    exists [TId "local_task"; TEq; TBool b], (GLocalTask b). repeat split; auto. constructor. }
  destruct l as [|t l]; [discriminate|]. destruct t; try discriminate.
  destruct (String.eqb_spec s "binds") as [->|_].
  { destruct (is_some (g_binds g)) eqn:H; [discriminate|]. destruct l as [|t l]; [discriminate|]. destruct t; try discriminate. injection E as <- <-. eexists [_; _; _], (GBinds s). repeat split; auto. constructor. }
  destruct (String.eqb_spec s "priority") as [->|_].
  { destruct (is_some (g_prio g)) eqn:H; [discriminate|]. destruct l as [|t l]; [discriminate|]. destruct t; try discriminate. destruct (suffix || (255 <? v)) eqn:C; [discriminate|]. apply orb_false_iff in C as [-> C]. apply Nat.ltb_ge in C. injection E as <- <-. eexists [_; _; _], (GPrio v). repeat split; auto. now constructor. }
  destruct (String.eqb_spec s "shared") as [->|_].
  { destruct (is_some (g_shared g)) eqn:H; [discriminate|]. destruct l as [|t l]; [discriminate|]. destruct t as [| | | | | | | | | | | |gr]; try discriminate. destruct (rd_shared _ gr) as [x|] eqn:C; [|discriminate]. apply shared_iff in C; [|lia]. injection E as <- <-. eexists [_; _; _], (GShared x). repeat split; auto. now constructor. }
  destruct (String.eqb_spec s "local") as [->|_]; [|discriminate].
  destruct (is_some (g_local g)) eqn:H; [discriminate|]. destruct l as [|t l]; [discriminate|]. destruct t as [| | | | | | | | | | | |gr]; try discriminate. destruct (rd_local _ gr) as [x|] eqn:C; [|discriminate]. apply local_iff in C; [|lia]. injection E as <- <-. eexists [_; _; _], (GLocal x). repeat split; auto. now constructor.
Qed.
Lemma one_task_total g t a r : arg_toks t a -> True -> has g a = false -> fits r -> one_task g (t ++ r) = Some (put g a, r).
Proof.
  intros H _ Hg F. destruct H; cbn [one_task List.app String.eqb Ascii.eqb Bool.eqb]; cbn [has] in Hg; rewrite ?Hg; try reflexivity.
  - rewrite (proj2 (Nat.ltb_ge _ _)) by lia. reflexivity.
  - rewrite (proj2 (shared_iff l x (Nat.lt_succ_diag_r _)) H). reflexivity.
  - rewrite (proj2 (local_iff l x (Nat.lt_succ_diag_r _)) H). reflexivity.
  - destruct r as [|[] r]; try reflexivity. destruct F.
Qed.
Definition idle_arg (init : bool) (a : arg) : Prop := match a with GLocal _ => True | GShared _ => init = false | _ => False end.
Lemma one_idle_spec init g l g' r : one_idle init g l = Some (g', r) -> exists t a, arg_toks t a /\ idle_arg init a /\ l = t ++ r /\ has g a = false /\ g' = put g a.
Proof.
  intros E. destruct l as [|t l]; [discriminate|]. destruct t; try discriminate. destruct l as [|t l]; [discriminate|]. destruct t; try discriminate. cbn [one_idle] in E.
  destruct (ieq s "shared" && negb init) eqn:Es.
  { apply andb_prop in Es as [Es Ei]. apply String.eqb_eq in Es as ->. apply negb_true_iff in Ei.
    destruct (is_some (g_shared g)) eqn:H; [discriminate|]. destruct l as [|t l]; [discriminate|]. destruct t as [| | | | | | | | | | | |gr]; try discriminate. destruct (rd_shared _ gr) as [x|] eqn:C; [|discriminate]. apply shared_iff in C; [|lia]. injection E as <- <-. eexists [_; _; _], (GShared x). repeat split; auto. now constructor. }
  destruct (String.eqb_spec s "local") as [->|_]; [|discriminate].
  destruct (is_some (g_local g)) eqn:H; [discriminate|]. destruct l as [|t l]; [discriminate|]. destruct t as [| | | | | | | | | | | |gr]; try discriminate. destruct (rd_local _ gr) as [x|] eqn:C; [|discriminate]. apply local_iff in C; [|lia]. injection E as <- <-. eexists [_; _; _], (GLocal x). repeat split; auto. now constructor.
Qed.
Lemma one_idle_total init g t a r : arg_toks t a -> idle_arg init a -> has g a = false -> fits r -> one_idle init g (t ++ r) = Some (put g a, r).
Proof.
  intros H Al Hg F. destruct H; cbn [one_idle List.app String.eqb Ascii.eqb Bool.eqb]; cbn [has idle_arg] in *; try contradiction; rewrite ?Hg.
  - subst init. cbn [andb negb]. rewrite (proj2 (shared_iff l x (Nat.lt_succ_diag_r _)) H). reflexivity.
  - cbn [andb]. rewrite (proj2 (local_iff l x (Nat.lt_succ_diag_r _)) H). reflexivity.
Qed.

Lemma pick_app {X} (f : arg -> option X) l a : pick f (l ++ [a]) = match pick f l with Some x => Some x | None => f a end.
Proof. induction l as [|b l IH]; simpl; [destruct (f a); reflexivity|]. destruct (f b); auto. Qed.
Lemma pick_none {X} (f : arg -> option X) l : (forall a, In a l -> f a = None) -> pick f l = None.
Proof. induction l as [|b l IH]; intros H; [reflexivity|]. simpl. rewrite (H b) by now left. apply IH. intros; apply H; now right. Qed.
Lemma fold_meaning l : NoDup (map name_of l) -> fold_left put l given0 = meaning l.
Proof.
  induction l as [|a l IH] using rev_ind; intros N; [reflexivity|]. rewrite map_app in N. cbn [map] in N. apply NoDup_remove in N as [N1 N2]. rewrite app_nil_r in *.
  rewrite fold_left_app. cbn [fold_left]. rewrite (IH N1). unfold meaning. rewrite !pick_app.
  assert (Q : forall b, In b l -> name_of b <> name_of a) by (intros b I0 E; apply N2; rewrite <- E; now apply in_map).
  destruct a; cbn [put g_binds g_prio g_shared g_local g_local_task];
    rewrite ?(@pick_none _ (fun a => match a with GBinds i => Some i | _ => None end) l), ?(@pick_none _ (fun a => match a with GPrio v => Some v | _ => None end) l) by (intros e0 I0; destruct e0; try reflexivity; destruct (Q _ I0 eq_refl)).
  all: try (rewrite (@pick_none _ (fun a => match a with GShared x => Some x | _ => None end) l) by (intros e0 I0; destruct e0; try reflexivity; destruct (Q _ I0 eq_refl))).
  all: try (rewrite (@pick_none _ (fun a => match a with GLocal x => Some x | _ => None end) l) by (intros e0 I0; destruct e0; try reflexivity; destruct (Q _ I0 eq_refl))).
  all: try (rewrite (@pick_none _ (fun a => match a with GLocalTask b => Some b | _ => None end) l) by (intros e0 I0; destruct e0; try reflexivity; destruct (Q _ I0 eq_refl))).
  all: repeat match goal with |- context [match ?o with Some x => Some x | None => None end] => replace (match o with Some x => Some x | None => None end) with o by (destruct o; reflexivity) end; reflexivity.
Qed.

Lemma parse_task_iff l g : parse_task l = Some g <-> exists args, args_toks true l args /\ NoDup (map name_of args) /\ g = meaning args.
Proof.
  unfold parse_task. rewrite task_loop. rewrite (@loop_iff true (fun _ => True) one_task one_task_spec one_task_total) by lia.
  split; intros (args & H1 & H2 & H3).
  - destruct H3 as [_ ->]. exists args. rewrite fold_meaning by exact H2. auto.
  - exists args. rewrite fold_meaning by exact H2. repeat split; auto. now destruct a.
Qed.
Lemma parse_idle_iff init l g : parse_idle init l = Some g <->
  (l = [] /\ g = given0) \/ exists args, args_toks false l args /\ NoDup (map name_of args) /\ (forall a, In a args -> idle_arg init a) /\ g = meaning args.
Proof.
  unfold parse_idle. destruct l as [|t l].
  - split; [intros [= <-]; auto|]. intros [[_ ->]|(args & H & _)]; [reflexivity|]. remember [] as L. destruct H as [T|t a H|t a l r H _]; [discriminate|exfalso; now apply (arg_len H)|destruct t; discriminate].
  - rewrite idle_loop. rewrite (@loop_iff false (idle_arg init) (one_idle init) (@one_idle_spec init) (@one_idle_total init)) by lia. split.
    + intros (args & H1 & H2 & H3 & ->). right. exists args. rewrite fold_meaning by exact H2. repeat split; auto. intros a I0. now apply H3.
    + intros [[E _]|(args & H1 & H2 & H3 & ->)]; [discriminate|]. exists args. rewrite fold_meaning by exact H2. repeat split; auto. now destruct a.
Qed.

(** * The grammar is unambiguous *)
Lemma arg_no_comma t a : arg_toks t a -> ~ In TComma t.
Proof. intros H I0. destruct H; simpl in I0; repeat (destruct I0 as [I0|I0]; [discriminate|]); exact I0. Qed.
Lemma split_comma (t t' l l' : list tok) : ~ In TComma t -> ~ In TComma t' -> t ++ TComma :: l = t' ++ TComma :: l' -> t = t' /\ l = l'.
Proof.
  revert t'. induction t as [|x t IH]; intros [|y t'] N N' E; simpl in E.
  - now injection E as <-.
  - exfalso. injection E as <- _. apply N'. now left.
  - exfalso. injection E as -> _. apply N. now left.
  - injection E as <- E. destruct (IH t') as [-> ->]; auto; [intros I0; apply N; now right|intros I0; apply N'; now right].
Qed.
Lemma arg_det t a a' : arg_toks t a -> arg_toks t a' -> a = a'.
Proof.
  intros H H'. destruct H; inversion H'; subst; try reflexivity.
  - pose proof (proj2 (shared_iff _ _ (Nat.lt_succ_diag_r _)) H). match goal with S2 : shared_list l x0 |- _ => pose proof (proj2 (shared_iff _ _ (Nat.lt_succ_diag_r _)) S2) end. congruence.
  - pose proof (proj2 (local_iff _ _ (Nat.lt_succ_diag_r _)) H). match goal with S2 : local_list l x0 |- _ => pose proof (proj2 (local_iff _ _ (Nat.lt_succ_diag_r _)) S2) end. congruence.
Qed.
Lemma args_det trail l args args' : args_toks trail l args -> args_toks trail l args' -> args = args'.
Proof.
  intros H. revert args'. induction H as [T|t a H|t a l r H Hl IH]; intros args' H'.
  - remember [] as L. destruct H' as [T'|t a H|t a l r H _]; [reflexivity|subst t; now apply arg_len in H|destruct t; discriminate].
  - remember t as L. destruct H' as [T'|t' a' H'|t' a' l r H' _]; subst.
    + now apply arg_len in H.
    + f_equal. eapply arg_det; eauto.
    + exfalso. apply (arg_no_comma H). apply in_elt.
  - remember (t ++ TComma :: l) as L. destruct H' as [T'|t' a' H'|t' a' l' r' H' Hl']; subst.
    + destruct t; discriminate.
    + exfalso. apply (arg_no_comma H'). apply in_elt.
    + apply split_comma in HeqL as [-> ->]; [|now apply (arg_no_comma H')|now apply (arg_no_comma H)]. f_equal; [eapply arg_det; eauto|now apply IH].
Qed.
Lemma parse_task_meaning l args : args_toks true l args -> NoDup (map name_of args) -> parse_task l = Some (meaning args).
Proof. intros H N. apply parse_task_iff. exists args. auto. Qed.
Lemma parse_task_twice l args : args_toks true l args -> ~ NoDup (map name_of args) -> parse_task l = None.
Proof. intros H N. destruct (parse_task l) eqn:E; [|reflexivity]. apply parse_task_iff in E as (args' & H1 & H2 & _). rewrite (args_det H H1) in N. contradiction. Qed.

(** * Order *)
Lemma pick_in {X} (f : arg -> option X) l x : pick f l = Some x -> exists a, In a l /\ f a = Some x.
Proof. induction l as [|b l IH]; simpl; [discriminate|]. destruct (f b) eqn:E; [intros [= <-]; eauto|]. intros H. destruct (IH H) as (a & I0 & H0). eauto. Qed.
Lemma name_inj l a b : NoDup (map name_of l) -> In a l -> In b l -> name_of a = name_of b -> a = b.
Proof.
  induction l as [|c l IH]; [intros _ []|]. intros N [->|I0] [->|J0] E; auto; inversion N as [|? ? N1 N2]; subst.
  - exfalso. apply N1. rewrite E. now apply in_map.
  - exfalso. apply N1. rewrite <- E. now apply in_map.
  - now apply IH.
Qed.
Lemma pick_some {X} (f : arg -> option X) l a x : NoDup (map name_of l) -> (forall b y, f b = Some y -> name_of b = name_of a) -> In a l -> f a = Some x -> pick f l = Some x.
Proof.
  intros N F I0 E. destruct (pick f l) as [y|] eqn:P.
  - apply pick_in in P as (b & J0 & E'). now rewrite <- E', (@name_inj l b a N J0 I0 (F b y E')).
  - exfalso. clear -I0 E P. induction l as [|c l IH]; [destruct I0|]. simpl in P. destruct I0 as [->|I0]; [rewrite E in P; discriminate|]. destruct (f c); [discriminate|auto].
Qed.
Lemma pick_perm {X} (f : arg -> option X) l l' : NoDup (map name_of l) -> (forall a b x y, f a = Some x -> f b = Some y -> name_of a = name_of b) -> Permutation l l' -> pick f l = pick f l'.
Proof.
  intros N F P. assert (N' : NoDup (map name_of l')) by (eapply Permutation_NoDup; [apply Permutation_map; exact P|exact N]).
  destruct (pick f l) as [x|] eqn:E.
  - apply pick_in in E as (a & I0 & E). symmetry. apply (@pick_some _ f l' a x N'); [intros b y Eb; eapply F; eauto|eapply Permutation_in; eauto|exact E].
  - destruct (pick f l') as [x|] eqn:E'; [|reflexivity]. apply pick_in in E' as (a & I0 & E'). apply Permutation_sym in P. rewrite <- E. apply (@pick_some _ f l a x N); [intros b y Eb; eapply F; eauto|eapply Permutation_in; eauto|exact E'].
Qed.
Lemma meaning_perm l l' : NoDup (map name_of l) -> Permutation l l' -> meaning l = meaning l'.
Proof. intros N P. unfold meaning. f_equal; apply pick_perm; auto; intros a b x y Ea Eb; destruct a, b; try discriminate; reflexivity. Qed.
