(** How many handlers and locks can be open at once, for every masking backend: the single stack of an application
    (LockModel.v). *)
From Verif Require Import Base LTS LockModel LockSpec.
Set Implicit Arguments.

(** * Specification *)
(** The priority levels an application uses, each once. *)
Definition levels (A : lapp) : list nat := nodup Nat.eq_dec (map (l_prio A) (l_lines A)).
Definition sum_of {V} (f : V -> nat) (l : list V) : nat := list_sum (map f l).

(** [size line task]: stack used by an active handler of that interrupt line ([None]: thread mode) while it runs that task
    ([None]: none).  [level_max A size bound]: [bound p] bounds it for every handler of priority [p] and every task it may
    run. *)
Definition level_max (A : lapp) (size : option nat -> option nat -> nat) (bound : nat -> nat) : Prop :=
  (forall i, In i (l_lines A) -> size (Some i) None <= bound (l_prio A i) /\
     forall t, l_line A t = Some i -> size (Some i) (Some t) <= bound (l_prio A i)) /\
  size None None <= bound 0 /\ (forall t, l_line A t = None -> size None (Some t) <= bound 0).
Definition stack_use (B : backend) (size : option nat -> option nat -> nat) (s : mach B) : nat :=
  sum_of (fun f => size (f_line f) (f_task f)) (m_stack s).

(** * Proofs *)
Section Proofs.
Context (B : backend) (A : lapp).
Implicit Types (s : mach B) (f : frame B) (fs : list (frame B)).

Definition fr f : Prop :=
  (forall t, f_task f = Some t -> l_line A t = f_line f) /\
  NoDup (map (@e_res B) (f_ents f)) /\
  (forall r, In r (map (@e_res B) (f_ents f)) -> exists t, f_task f = Some t /\ l_uses A t r = true).

Fixpoint sok fs : Prop :=
  match fs with
  | [] => False
  | f :: fs' =>
      fr f /\
      match fs' with
      | [] => f_line f = None
      | _ => (exists i, f_line f = Some i /\ In i (l_lines A)) /\
             (forall g, In g fs' -> lprio A (f_line g) < lprio A (f_line f)) /\ sok fs'
      end
  end.

Lemma sok_head f f' fs : sok (f :: fs) -> f_line f' = f_line f -> fr f' -> sok (f' :: fs).
Proof. simpl. destruct fs; intros [_ H] E F; (split; [exact F|]); rewrite E; exact H. Qed.

Lemma fr_same f f' : fr f -> f_line f' = f_line f -> f_task f' = f_task f ->
  map (@e_res B) (f_ents f') = map (@e_res B) (f_ents f) -> fr f'.
Proof. unfold fr. intros (H1 & H2 & H3) E1 E2 E3. rewrite E1, E2, E3. auto. Qed.

Lemma sok_step s l s' : sok (m_stack s) -> mstep A s l = Some s' -> sok (m_stack s').
Proof.
  unfold mstep. intros H Hs. destruct (m_stack s) as [|f fs] eqn:ES; [discriminate|].
  assert (HF : fr f) by (destruct H; auto).
  destruct l.
  - destruct (can_take A s i) eqn:EC; [|discriminate]. injection Hs as <-. cbn [m_stack].
    unfold can_take in EC. rewrite ES in EC. apply andb_prop in EC as [EC E3]. apply andb_prop in EC as [E1 _].
    apply existsb_exists in E1 as (i' & Hi & Ei). apply Nat.eqb_eq in Ei. subst i'. rewrite forallb_forall in E3.
    split; [repeat split; cbn [f_task f_ents f_line map]; [discriminate|constructor|intros r []]|].
    split; [exists i; auto|]. split; [|exact H].
    intros g Hg. apply Nat.ltb_lt. apply E3. exact Hg.
  - destruct (f_task f) eqn:ET; [discriminate|]. destruct (f_ents f) eqn:EE; [|discriminate].
    destruct (match l_line A t with Some i => _ | None => _ end) eqn:EL; [|discriminate]. injection Hs as <-.
    eapply sok_head; [exact H|reflexivity|]. repeat split; cbn [set_task f_task f_line f_ents].
    + intros t' [= <-]. destruct (l_line A t), (f_line f); try discriminate; [|reflexivity]. apply Nat.eqb_eq in EL. now subst.
    + rewrite EE. constructor.
    + rewrite EE. intros r [].
  - destruct (f_task f) eqn:ET; [|discriminate]. destruct (f_ents f) eqn:EE; [|discriminate]. injection Hs as <-.
    eapply sok_head; [exact H|reflexivity|]. repeat split; cbn [set_task f_task f_line f_ents]; [discriminate|rewrite EE; constructor|rewrite EE; intros r []].
  - destruct (f_task f) as [t|] eqn:ET; [|discriminate]. destruct (_ && _ && _ && _) eqn:EB; [|discriminate]. injection Hs as <-.
    apply andb_prop in EB as [EB _]. apply andb_prop in EB as [EB E3]. apply andb_prop in EB as [E1 _].
    eapply sok_head; [exact H|reflexivity|]. destruct HF as (H1 & H2 & H3). repeat split; cbn [set_ents f_task f_line f_ents map e_res].
    + exact H1.
    + constructor; [|exact H2]. intros I. apply negb_true_iff in E3. unfold locked in E3.
      apply in_map_iff in I as (e & Ee & I). assert (C : existsb (fun e => Nat.eqb (e_res e) r) (f_ents f) = true)
        by (apply existsb_exists; exists e; split; [exact I|now apply Nat.eqb_eq]). congruence.
    + intros r' [<-|I]; [exists t; auto|]. apply H3. exact I.
  - unfold micro in Hs. destruct (f_ents f) as [|e es] eqn:EE; [discriminate|].
    assert (K1 : forall e', e_res e' = e_res e -> fr (set_ents f (e' :: es))).
    { intros e' Er. eapply fr_same; [exact HF|reflexivity|reflexivity|]. rewrite EE. cbn [set_ents f_ents map]. now rewrite Er. }
    assert (K2 : fr (set_ents f es)).
    { destruct HF as (H1 & H2 & H3). rewrite EE in H2, H3. repeat split; cbn [set_ents f_task f_line f_ents].
      - exact H1. - now inversion H2. - intros r I. apply H3. now right. }
    destruct (e_ph e); [| discriminate |].
    + destruct (nth_error (enter B (l_ceil A (e_res e))) k); injection Hs as <-; (eapply sok_head; [exact H|reflexivity|]); apply K1; reflexivity.
    + destruct (nth_error (leave B (l_ceil A (e_res e)) (e_saved e)) k); injection Hs as <-; (eapply sok_head; [exact H|reflexivity|]); [apply K1; reflexivity|exact K2].
  - destruct (f_ents f) as [|e es] eqn:EE; [discriminate|]. destruct (e_ph e); try discriminate. injection Hs as <-.
    eapply sok_head; [exact H|reflexivity|]. eapply fr_same; [exact HF|reflexivity|reflexivity|]. rewrite EE. reflexivity.
  - destruct (f_line f) eqn:EL; [|discriminate]. destruct (f_task f); [discriminate|]. destruct (f_ents f); [|discriminate].
    destruct fs as [|g fs']; [discriminate|]. injection Hs as <-. cbn [m_stack]. destruct H as (_ & _ & _ & H). exact H.
Qed.

Lemma sok_reach m0 x0 s : mreach A m0 x0 s -> sok (m_stack s).
Proof.
  refine (@reach_inv _ _ (@mstep B A) (fun s => sok (m_stack s)) _ _ _ s).
  - simpl. split; [|reflexivity]. repeat split; cbn; [discriminate|constructor|intros r []].
  - intros s0 l s1. apply sok_step.
Qed.

Lemma sum_incl {V} (f : V -> nat) l : NoDup l -> forall m, incl l m -> sum_of f l <= sum_of f m.
Proof.
  unfold sum_of. induction 1 as [|v l N Hl IH]; intros m I; simpl; [lia|].
  assert (Hv : In v m) by (apply I; now left). apply in_split in Hv as (m1 & m2 & ->).
  assert (J : incl l (m1 ++ m2)).
  { intros u Hu. assert (K : In u (m1 ++ v :: m2)) by (apply I; now right). apply in_app_or in K.
    apply in_or_app. destruct K as [K|[->|K]]; auto. contradiction. }
  specialize (IH _ J). rewrite map_app, list_sum_app in *. simpl. lia.
Qed.

Lemma sok_parts fs : sok fs -> exists hs bot, fs = hs ++ [bot] /\ f_line bot = None /\ fr bot /\
  (forall h, In h hs -> fr h /\ exists i, f_line h = Some i /\ In i (l_lines A)) /\
  NoDup (map (fun h => lprio A (f_line h)) hs).
Proof.
  induction fs as [|f fs IH]; [intros []|]. simpl. intros [HF H]. destruct fs as [|g fs'].
  - exists [], f. simpl. repeat split; auto; try apply HF; try tauto. constructor.
  - destruct H as (HI & HL & H). destruct (IH H) as (hs & bot & E & E1 & E2 & E3 & E4).
    exists (f :: hs), bot. rewrite E. split; [reflexivity|]. split; [exact E1|]. split; [exact E2|]. split.
    + intros h [<-|Hh]; [auto|]. apply E3. exact Hh.
    + simpl. constructor; [|exact E4]. intros I. apply in_map_iff in I as (h & Eh & Ih).
      assert (L : lprio A (f_line h) < lprio A (f_line f)) by (apply HL; rewrite E; apply in_or_app; auto). lia.
Qed.

Lemma levels_in i : In i (l_lines A) -> In (l_prio A i) (levels A).
Proof. intros I. apply nodup_In. apply in_map_iff. eauto. Qed.

Lemma depth m0 x0 s : mreach A m0 x0 s -> length (m_stack s) <= 1 + length (levels A).
Proof.
  intros R. destruct (@sok_parts _ (sok_reach R)) as (hs & bot & -> & _ & _ & H & N). rewrite app_length. simpl.
  enough (length (map (fun h => lprio A (f_line h)) hs) <= length (levels A)) by (rewrite map_length in *; lia).
  apply NoDup_incl_length; [exact N|]. intros p I. apply in_map_iff in I as (h & <- & Ih).
  destruct (H h Ih) as (_ & i & -> & Hi). simpl. now apply levels_in.
Qed.

Lemma use_bound m0 x0 s size bound : mreach A m0 x0 s -> level_max A size bound ->
  stack_use size s <= bound 0 + sum_of bound (levels A).
Proof.
  intros R (M1 & M2 & M3). destruct (@sok_parts _ (sok_reach R)) as (hs & bot & E & E1 & E2 & H & N).
  unfold stack_use, sum_of. rewrite E, map_app, list_sum_app. simpl.
  assert (K0 : size (f_line bot) (f_task bot) <= bound 0).
  { rewrite E1. destruct (f_task bot) as [t|] eqn:ET; [|exact M2]. apply M3. destruct E2 as (E2 & _). rewrite (E2 t ET). exact E1. }
  assert (K1 : list_sum (map (fun f => size (f_line f) (f_task f)) hs) <= list_sum (map bound (map (fun h => lprio A (f_line h)) hs))).
  { clear N E. induction hs as [|h hs IH]; simpl; [lia|].
    assert (C : size (f_line h) (f_task h) <= bound (lprio A (f_line h))).
    { destruct (H h (or_introl eq_refl)) as ((F & _) & i & Ei & Hi). destruct (M1 i Hi) as [C1 C2].
      rewrite Ei. simpl. destruct (f_task h) as [t|] eqn:ET; [|exact C1]. apply C2. rewrite (F t eq_refl). exact Ei. }
    assert (D : list_sum (map (fun f => size (f_line f) (f_task f)) hs) <= list_sum (map bound (map (fun h => lprio A (f_line h)) hs)))
      by (apply IH; intros; apply H; now right). lia. }
  assert (K2 : list_sum (map bound (map (fun h => lprio A (f_line h)) hs)) <= list_sum (map bound (levels A))).
  { apply (sum_incl bound N). intros p I. apply in_map_iff in I as (h & <- & Ih).
    destruct (H h Ih) as (_ & i & -> & Hi). simpl. now apply levels_in. }
  lia.
Qed.

Lemma sok_split above f below : sok (above ++ f :: below) ->
  fr f /\ (forall g, In g above -> lprio A (f_line f) < lprio A (f_line g)).
Proof.
  induction above as [|h above IH]; simpl.
  - intros [H _]. split; [exact H|intros g []].
  - intros [_ H]. destruct (above ++ f :: below) as [|a l] eqn:E; [destruct above; discriminate|].
    rewrite <- E in H. destruct H as (_ & HL & H). specialize (IH ltac:(rewrite <- E; exact H)). destruct IH as [F K].
    split; [exact F|]. intros g [<-|Hg]; [|auto]. apply HL. apply in_or_app. right. now left.
Qed.
End Proofs.
