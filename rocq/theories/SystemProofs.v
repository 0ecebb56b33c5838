(** Proofs about the whole running application (SystemModel.v). *)
From Verif Require Import Base LTS LockModel LockSpec LockProofs StackBound ExecModel ExecSpec ExecProofs ExecProgress SystemModel.
Set Implicit Arguments.

(** What the macro guarantees of the numbering (AppRun, PropertiesSystem): each handler runs its own tasks. *)
Record sapp_ok (P : sapp) : Prop := {
  so_nodup : NoDup (l_lines (sa_lock P));
  so_pos : forall i, In i (l_lines (sa_lock P)) -> 1 <= l_prio (sa_lock P) i;
  so_hw : forall i t, In i (l_lines (sa_lock P)) -> sa_hw P i = Some t -> l_line (sa_lock P) t = Some i;
  so_polls : forall k t, In t (sa_polls P k) -> l_line (sa_lock P) t = k /\ match k with Some i => In i (l_lines (sa_lock P)) /\ sa_hw P i = None | None => sa_idle P = None end;
  so_idle : forall t, sa_idle P = Some t -> l_line (sa_lock P) t = None
}.

Lemma updo_same {X} (f : option nat -> X) k v : updo f k v k = v.
Proof. unfold updo. destruct k; [now rewrite Nat.eqb_refl|reflexivity]. Qed.
Lemma updo_other {X} (f : option nat -> X) k v j : j <> k -> updo f k v j = f j.
Proof. unfold updo. destruct j, k; intros H; auto; [|congruence]. destruct (Nat.eqb_spec n n0); [congruence|reflexivity]. Qed.
Lemma onat_dec (j k : option nat) : {j = k} + {j <> k}.
Proof. decide equality. apply Nat.eq_dec. Qed.
Lemma bind_inv {X Y} (o : option X) (f : X -> option Y) y : bind o f = Some y -> exists x, o = Some x /\ f x = Some y.
Proof. destruct o; simpl; [eauto|discriminate]. Qed.
Lemma hctx_inj o o' : hctx o = hctx o' -> o = o'.
Proof. destruct o, o'; simpl; intros H; auto; try lia. f_equal; lia. Qed.
Lemma hctx_ectx o c : hctx o <> ectx c.
Proof. unfold ectx. destruct o; simpl; lia. Qed.

Section Proofs.
Context {V : Type} (B : backend) (P : sapp).
Notation A := (sa_lock P).
Notation sys := (sys V B).
Notation step := (@ystep V B P).
Implicit Types (s : sys) (f : frame B).

Lemma xdo_inv s k l s' : xdo P s k l = Some s' -> exists e, xs P k (y_x s k) l = Some e /\ s' = mkY (y_m s) (updo (y_x s) k e) (y_pend s) (y_ran s) (y_call s).
Proof. unfold xdo. destruct (xs P k (y_x s k) l) as [e|]; [|discriminate]. intros [= <-]. eauto. Qed.
Lemma mdo_inv s l s' : mdo P s l = Some s' -> exists m, mstep A (y_m s) l = Some m /\ s' = mkY m (y_x s) (y_pend s) (y_ran s) (y_call s).
Proof. unfold mdo. destruct (mstep A (y_m s) l) as [e|]; [|discriminate]. intros [= <-]. eauto. Qed.

(** Every step is at most one step of the machine and at most one step of one executor. *)
Definition mpart s s' : Prop := y_m s' = y_m s \/ exists l, mstep A (y_m s) l = Some (y_m s').
Definition xpart s s' : Prop := forall k, y_x s' k = y_x s k \/ exists l, xs P k (y_x s k) l = Some (y_x s' k).

Ltac inv H := apply bind_inv in H as (? & ? & ?).
Ltac undo :=
  repeat match goal with
  | H : bind _ _ = Some _ |- _ => let x := fresh "z" in let E := fresh "E" in apply bind_inv in H as (x & E & H)
  | H : xdo _ _ _ _ = Some _ |- _ => let e := fresh "e" in let X := fresh "X" in apply xdo_inv in H as (e & X & ->)
  | H : mdo _ _ _ = Some _ |- _ => let m := fresh "m" in let M := fresh "M" in apply mdo_inv in H as (m & M & ->)
  | H : Some _ = Some _ |- _ => injection H as <-
  | H : None = Some _ |- _ => discriminate H
  | H : (match ?o with _ => _ end) = Some _ |- _ => destruct o eqn:?
  end; cbn [y_m y_x y_pend y_ran y_call] in *.
Ltac un Hs := unfold ystep, take, hstep, done, dstep, ucall, go_on in Hs; undo.

Ltac ifH H := match type of H with (if ?c then _ else _) = _ => destruct c; [|discriminate H] end.
Lemma ystep_mpart s l s' : step s l = Some s' -> mpart s s'.
Proof. intros Hs. unfold mpart. un Hs; cbn [y_m]; eauto. Qed.
Lemma ystep_xpart s l s' : step s l = Some s' -> xpart s s'.
Proof.
  intros Hs k. un Hs; unfold after_call; cbn [y_x]; auto;
    match goal with
    | |- context[updo _ ?j _ k] => destruct (onat_dec k j) as [-> |N]; [rewrite updo_same; eauto|rewrite updo_other by exact N; now left]
    end.
Qed.
Context (m0 : bm B) (x0 : bs B).
Definition yreach s : Prop := reach step (@y_init V B m0 x0) s.

Lemma yreach_m s : yreach s -> mreach A m0 x0 (y_m s).
Proof.
  intros R. refine (@reach_inv _ _ step (fun s => mreach A m0 x0 (y_m s)) _ _ _ s R); [apply reach_refl|].
  intros s1 l s2 R1 Hs. destruct (ystep_mpart _ _ Hs) as [E|[l' E]]; [now rewrite E|eapply reach_step; eauto].
Qed.
Lemma yreach_x s k : yreach s -> xreach (is_zero k) (sa_polls P k) (y_x s k).
Proof.
  intros R. refine (@reach_inv _ _ step (fun s => xreach (is_zero k) (sa_polls P k) (y_x s k)) _ _ _ s R); [apply reach_refl|].
  intros s1 l s2 R1 Hs. destruct (ystep_xpart _ _ Hs k) as [E|[l' E]]; [now rewrite E|eapply reach_step; eauto].
Qed.
(** ** The stack as lines and tasks *)
Definition view_of (m : mach B) : list (option nat * option nat) := map (fun f => (f_line f, f_task f)) (m_stack m).
Definition vw s := view_of (y_m s).
Lemma mview (m m' : mach B) l : mstep A m l = Some m' -> exists o to rest, view_of m = (o, to) :: rest /\
  match l with
  | LTake i => In i (l_lines A) /\ view_of m' = (Some i, None) :: (o, to) :: rest
  | LStart t => to = None /\ l_line A t = o /\ view_of m' = (o, Some t) :: rest
  | LStop => to <> None /\ view_of m' = (o, None) :: rest
  | LRet => to = None /\ o <> None /\ rest <> [] /\ view_of m' = rest
  | _ => view_of m' = (o, to) :: rest
  end.
Proof.
  unfold mstep, view_of. destruct (m_stack m) as [|f fs] eqn:ES; [discriminate|]. intros H. exists (f_line f), (f_task f), (map (fun g => (f_line g, f_task g)) fs). split; [reflexivity|].
  destruct l as [i|t| |r| | |].
  - destruct (can_take A m i) eqn:C; [|discriminate]. injection H as <-. cbn [m_stack map f_line f_task]. split; [|reflexivity].
    unfold can_take in C. apply andb_prop in C as [C _]. apply andb_prop in C as [C _]. apply existsb_exists in C as (j & J & E). apply Nat.eqb_eq in E. now subst.
  - destruct (f_task f) eqn:ET; [discriminate|]. destruct (f_ents f); [|discriminate]. destruct (match l_line A t with Some i => _ | None => _ end) eqn:EL; [|discriminate]. injection H as <-. cbn. split; [reflexivity|]. split; [|reflexivity].
    destruct (l_line A t), (f_line f); try discriminate; [|reflexivity]. apply Nat.eqb_eq in EL. now subst.
  - destruct (f_task f) eqn:ET; [|discriminate]. destruct (f_ents f); [|discriminate]. injection H as <-. cbn. split; [discriminate|reflexivity].
  - destruct (f_task f) eqn:ET; [|discriminate]. destruct (_ && _ && _ && _); [|discriminate]. injection H as <-. cbn. now rewrite ET.
  - destruct (micro A (m_mask m) f) as [[m1 f1]|] eqn:EM; [|discriminate]. injection H as <-. cbn. unfold micro in EM. destruct (f_ents f) as [|e es]; [discriminate|].
    destruct (e_ph e); [destruct (nth_error (enter B _) k)|discriminate|destruct (nth_error (leave B _ _) k)]; injection EM as <- <-; reflexivity.
  - destruct (f_ents f) as [|e es]; [discriminate|]. destruct (e_ph e); try discriminate. injection H as <-. reflexivity.
  - destruct (f_line f); [|discriminate]. destruct (f_task f); [discriminate|]. destruct (f_ents f); [|discriminate]. destruct fs; [discriminate|]. injection H as <-. cbn. repeat split; discriminate.
Qed.
Lemma sok_lines fs : sok A fs -> NoDup (map (@f_line B) fs).
Proof.
  induction fs as [|f fs IH]; simpl; [tauto|]. intros [_ H]. destruct fs as [|g fs]; [repeat constructor; auto|]. destruct H as (_ & L & H). constructor; [|exact (IH H)].
  intros I. apply in_map_iff in I as (h & E & I). specialize (L h I). rewrite E in L. lia.
Qed.
Lemma view_lines s : yreach s -> NoDup (map fst (vw s)).
Proof. intros R. pose proof (@sok_lines _ (sok_reach (yreach_m R))) as N. unfold vw, view_of. rewrite map_map. exact N. Qed.

(** ** Handlers on the stack and executors *)
Notation view := (list (option nat * option nat)).
Record RunInv (v : view) (d : option nat -> dpc) : Prop := {
  R_run : forall o to k, In (o, to) v -> disp_of P o = Some k -> match to with Some t => exists ts, d k = DIn t ts | None => forall t ts, d k <> DIn t ts end;
  R_off : forall i, ~ In (Some i) (map fst v) -> d (Some i) = DIdle;
  R_hw : forall i, sa_hw P i <> None -> d (Some i) = DIdle
}.
Lemma disp_of_self o k : disp_of P o = Some k -> k = o.
Proof. unfold disp_of. destruct o as [i|]; [destruct (sa_hw P i)|destruct (sa_idle P)]; congruence. Qed.
Lemma disp_of_hw i k : disp_of P (Some i) = Some k -> sa_hw P i = None.
Proof. unfold disp_of. destruct (sa_hw P i); congruence. Qed.

(* the top frame's executor moves, the top frame with it *)
Lemma run_top o to to' rest d d' : NoDup (map fst ((o, to) :: rest)) -> RunInv ((o, to) :: rest) d ->
  (forall j, j <> o -> d' j = d j) ->
  (forall k, disp_of P o = Some k -> match to' with Some t => exists ts, d' k = DIn t ts | None => forall t ts, d' k <> DIn t ts end) ->
  (disp_of P o = None -> d' o = d o) -> RunInv ((o, to') :: rest) d'.
Proof.
  intros N H Ho Hk Hn. simpl in N. apply NoDup_cons_iff in N as [N _]. constructor.
  - intros o1 to1 k [[= <- <-]|I] E; [exact (Hk k E)|]. assert (o1 <> o) by (intros ->; apply N, in_map_iff; exists (o, to1); auto).
    pose proof (disp_of_self _ E) as ->. rewrite (Ho o1) by assumption. exact (R_run H _ _ (or_intror I) E).
  - intros i I. rewrite Ho; [apply (R_off H); exact I|]. intros <-. apply I. now left.
  - intros i I. destruct (onat_dec (Some i) o) as [<- |X]; [|rewrite Ho by exact X; now apply (R_hw H)]. rewrite Hn; [now apply (R_hw H)|]. unfold disp_of. destruct (sa_hw P i); congruence.
Qed.
Lemma run_push v i d d' : RunInv v d -> ~ In (Some i) (map fst v) -> (forall j, j <> Some i -> d' j = d j) -> (forall t ts, d' (Some i) <> DIn t ts) ->
  (sa_hw P i <> None -> d' (Some i) = DIdle) -> RunInv ((Some i, None) :: v) d'.
Proof.
  intros H N Ho Hk Hw. constructor.
  - intros o to k [[= <- <-]|I] E; [pose proof (disp_of_self _ E) as ->; exact Hk|]. pose proof (disp_of_self _ E) as ->.
    assert (o <> Some i) by (intros ->; apply N, in_map_iff; exists (Some i, to); auto). rewrite Ho by assumption. exact (R_run H _ _ I E).
  - intros j I. simpl in I. rewrite Ho; [apply (R_off H); tauto|intros [= ->]; tauto].
  - intros j J. destruct (Nat.eq_dec j i) as [-> |X]; [auto|]. rewrite Ho by congruence. now apply (R_hw H).
Qed.
Lemma run_pop o to rest d : RunInv ((o, to) :: rest) d -> d o = DIdle \/ o = None -> RunInv rest d.
Proof.
  intros H D. constructor.
  - intros o1 to1 k I E. exact (R_run H _ _ (or_intror I) E).
  - intros i I. destruct D as [D| ->]; [|apply (R_off H); simpl; intuition discriminate]. destruct (onat_dec o (Some i)) as [<- |X]; [exact D|]. apply (R_off H). simpl. tauto.
  - exact (R_hw H).
Qed.
Lemma run_ext v d d' : RunInv v d -> (forall k, d' k = d k) -> RunInv v d'.
Proof. intros H E. constructor; intros; [rewrite E; eapply (R_run H); eauto|rewrite E; now apply (R_off H)|rewrite E; now apply (R_hw H)]. Qed.
Definition dpf s : option nat -> dpc := fun k => dp (y_x s k).
Definition no_in (d : dpc) : Prop := forall t ts, d <> DIn t ts.
Lemma x_call k (e e' : @ex V) l : xs P k e l = Some e' -> match l with LSpawn _ _ _ | LWake _ _ | LCtx _ => dp e' = dp e | _ => True end.
Proof. unfold xs. intros H. destruct l; auto; (eapply others_keep_dp; [exact H|intros; discriminate..]). Qed.
Lemma x_from_in k (e e' : @ex V) r t ts : dp e = DIn t ts -> xs P k e (LDisp r) = Some e' -> no_in (dp e').
Proof.
  unfold xs, xstep, disp_step, no_in. intros -> H t' ts'. destruct (ebug e); [discriminate|]. destruct r; [destruct (slot e t); try discriminate|]; injection H as <-; simpl; discriminate.
Qed.
Lemma x_enter k (e e' : @ex V) (b : bool) : xs P k e (if b then LAccept else LDispatch) = Some e' -> dp e = DIdle /\ no_in (dp e').
Proof.
  unfold xs, xstep, no_in. intros H. destruct (ebug e); [discriminate|]. destruct b, (dp e); try discriminate; ifH H; injection H as <-; split; auto; discriminate.
Qed.
Lemma dpf_upd s k e j : dp (updo (y_x s) k e j) = if onat_dec j k then dp e else dpf s j.
Proof. destruct (onat_dec j k) as [-> |N]; [now rewrite updo_same|now rewrite updo_other]. Qed.

Lemma call_dpf s k l s' : xdo P s k l = Some s' -> match l with LSpawn _ _ _ | LWake _ _ | LCtx _ => True | _ => False end -> y_m s' = y_m s /\ forall j, dpf s' j = dpf s j.
Proof.
  intros H L. apply xdo_inv in H as (e & X & ->). split; [reflexivity|]. intros j. unfold dpf at 1. cbn [y_x]. rewrite dpf_upd. destruct (onat_dec j k) as [-> |]; [|reflexivity].
  apply x_call in X. destruct l; try contradiction; exact X.
Qed.

Lemma RunInv_dstep s k r s' o rest : NoDup (map fst (vw s)) -> RunInv (vw s) (dpf s) -> vw s = (o, None) :: rest -> disp_of P o = Some k -> dstep P s k r = Some s' -> RunInv (vw s') (dpf s').
Proof.
  intros N H E D Hs. unfold dstep in Hs. apply bind_inv in Hs as (z & E1 & Hs). apply xdo_inv in E1 as (e & X & ->). cbn [y_x] in Hs. pose proof (disp_of_self _ D) as ->. rewrite updo_same in Hs. rewrite E in N, H.
  assert (G : forall to', match to' with Some t => exists ts, dp e = DIn t ts | None => no_in (dp e) end -> RunInv ((o, to') :: rest) (fun j => dp (updo (y_x s) o e j))).
  { intros to' T. apply (@run_top o None to' rest (dpf s) _ N H).
    - intros j J. now rewrite updo_other.
    - intros k K. pose proof (disp_of_self _ K) as ->. rewrite updo_same. exact T.
    - congruence. }
  destruct (dp e) as [| | | |t ts|] eqn:Ed; undo; try (change (RunInv (vw s) (fun j => dp (updo (y_x s) o e j))); rewrite E; apply (G None); intros ? ?; discriminate).
  apply mview in M as (o1 & to1 & rest1 & V1 & _ & _ & V2). change (view_of (y_m s)) with (vw s) in V1. rewrite E in V1. injection V1 as <- <- <-.
  unfold vw, dpf. cbn [y_m y_x]. rewrite V2. apply (G (Some t)). eauto.
Qed.

Lemma RunInv_step s l s' : NoDup (map fst (vw s)) -> RunInv (vw s) (dpf s) -> step s l = Some s' -> NoDup (map fst (vw s')) -> RunInv (vw s') (dpf s').
Proof.
  intros N H Hs N'. unfold ystep in Hs. destruct (m_stack (y_m s)) as [|f fs] eqn:ES; [discriminate|].
  assert (EV : vw s = (f_line f, f_task f) :: map (fun g => (f_line g, f_task g)) fs) by (unfold vw, view_of; now rewrite ES).
  destruct l as [i|i| |r|r| | |k t o| |c k t o|c].
  - undo. exact H.
  - unfold take in Hs. destruct (sa_hw P i) as [t|] eqn:Eh.
    + undo. apply mview in M as (o1 & to1 & rest1 & V1 & _ & V2). unfold vw, dpf in *. cbn [y_m y_x] in *. rewrite V2 in *. rewrite <- V1 in *. apply run_push with (d := dpf s); auto.
      * simpl in N'. now apply NoDup_cons_iff in N'.
      * rewrite (R_hw H); [discriminate|congruence].
      * intros _. apply (R_hw H). congruence.
    + undo. apply mview in M as (o1 & to1 & rest1 & V1 & _ & V2). cbn [y_m] in V1. unfold vw, dpf in *. cbn [y_m y_x] in *. rewrite V2 in *. rewrite <- V1 in *. apply x_enter in X as [_ X].
      apply run_push with (d := dpf s); auto.
      * simpl in N'. now apply NoDup_cons_iff in N'.
      * intros j J. now rewrite updo_other.
      * rewrite updo_same. exact X.
      * congruence.
  - destruct (free s _); [|discriminate]. unfold hstep in Hs. destruct (f_task f) eqn:ET; [discriminate|]. 
    destruct (disp_of P (f_line f)) as [k|] eqn:ED; rewrite ?ET in EV.
    + assert (DS : dstep P s k false = Some s' -> RunInv (vw s') (dpf s')) by (intros X; exact (@RunInv_dstep s k false s' _ _ N H EV ED X)).
      destruct (dp (y_x s k)) eqn:Ed; [|first [exact (DS Hs)|destruct k; first [exact (DS Hs)|discriminate]]..].
      pose proof (disp_of_self _ ED) as ->. destruct (f_line f) as [i|] eqn:EL.
      * undo. apply mview in M as (o1 & to1 & rest1 & V1 & _ & _ & _ & V2). change (view_of (y_m s)) with (vw s) in V1. unfold vw at 1. cbn [y_m]. rewrite V2. rewrite V1 in H. rewrite EV in V1. injection V1 as <- <- <-.
        eapply run_pop; [exact H|left; exact Ed].
      * undo. change (RunInv (vw s) (fun j => dp (updo (y_x s) None e j))). rewrite EV in *. refine (@run_top None None None _ (dpf s) _ N H _ _ _).
        -- intros j J. now rewrite updo_other.
        -- intros k K. pose proof (disp_of_self _ K) as ->. rewrite updo_same. exact (proj2 (@x_enter None _ _ false X)).
        -- congruence.
    + destruct (f_line f) as [i|] eqn:EL.
      * destruct (y_ran s i).
        -- undo. apply mview in M as (o1 & to1 & rest1 & V1 & _ & _ & _ & V2). change (view_of (y_m s)) with (vw s) in V1. unfold vw at 1. cbn [y_m]. rewrite V2. rewrite V1 in H. rewrite EV in V1. injection V1 as <- <- <-.
           eapply run_pop; [exact H|left]. apply (R_hw H). unfold disp_of in ED. destruct (sa_hw P i); congruence.
        -- undo. apply mview in M as (o1 & to1 & rest1 & V1 & _ & _ & V2). change (view_of (y_m s)) with (vw s) in V1. unfold vw at 1. cbn [y_m y_x] in *. rewrite V2. rewrite V1 in H, N. rewrite EV in V1. injection V1 as <- <- <-.
           eapply run_top; [exact N|exact H|reflexivity|congruence|reflexivity].
      * undo. apply mview in M as (o1 & to1 & rest1 & V1 & _ & _ & V2). change (view_of (y_m s)) with (vw s) in V1. unfold vw at 1. cbn [y_m y_x] in *. rewrite V2. rewrite V1 in H, N. rewrite EV in V1. injection V1 as <- <- <-.
        eapply run_top; [exact N|exact H|reflexivity|congruence|reflexivity].
  - destruct (free s _); [|discriminate]. unfold done in Hs. destruct (f_task f) as [t|] eqn:ET; [|discriminate]. destruct (f_ents f); [|discriminate].
    destruct (disp_of P (f_line f)) as [k|] eqn:ED; rewrite ?ET in EV.
    + undo. pose proof (disp_of_self _ ED) as ->. apply mview in M as (o1 & to1 & rest1 & V1 & _ & V2). cbn [y_m] in V1. change (view_of (y_m s)) with (vw s) in V1. unfold vw at 1. cbn [y_m y_x] in *. rewrite V2. rewrite V1 in H, N. rewrite EV in V1. injection V1 as <- <- <-.
      destruct (R_run H _ _ (or_introl eq_refl) ED) as [ts Ets]. refine (@run_top _ _ None _ (dpf s) _ N H _ _ _).
      * intros j J. unfold dpf. cbn [y_x]. now rewrite updo_other.
      * intros k K. pose proof (disp_of_self _ K) as ->. unfold dpf. cbn [y_x]. rewrite updo_same. exact (@x_from_in _ _ _ _ _ _ Ets X).
      * congruence.
    + destruct (f_line f) as [i|] eqn:EL; [|discriminate]. undo. apply mview in M as (o1 & to1 & rest1 & V1 & _ & V2). change (view_of (y_m s)) with (vw s) in V1. unfold vw at 1. cbn [y_m y_x] in *. rewrite V2. rewrite V1 in H, N. rewrite EV in V1. injection V1 as <- <- <-.
      eapply run_top; [exact N|exact H|reflexivity|congruence|reflexivity].
  - undo. apply mview in M as (o1 & to1 & rest1 & V1 & V2). unfold vw in *. cbn [y_m]. rewrite V2, <- V1. exact H.
  - undo. apply mview in M as (o1 & to1 & rest1 & V1 & V2). unfold vw in *. cbn [y_m]. rewrite V2, <- V1. exact H.
  - undo. apply mview in M as (o1 & to1 & rest1 & V1 & V2). unfold vw in *. cbn [y_m]. rewrite V2, <- V1. exact H.
  - destruct (f_task f); [|discriminate]. destruct (calm _); [|discriminate]. unfold ucall in Hs. destruct (free s _); [|discriminate]. apply bind_inv in Hs as (z & E & [= <-]).
    apply call_dpf in E as [E1 E2]; [|now destruct o]. unfold vw, after_call. cbn [y_m]. rewrite E1. eapply run_ext; [exact H|exact E2].
  - unfold go_on in Hs. destruct (y_call s _) as [k|]; [|discriminate]. apply bind_inv in Hs as (z & E & [= <-]).
    apply call_dpf in E as [E1 E2]; [|exact I]. unfold vw, after_call. cbn [y_m]. rewrite E1. eapply run_ext; [exact H|exact E2].
  - destruct (existsb _ _); [|discriminate]. unfold ucall in Hs. destruct (free s _); [|discriminate]. apply bind_inv in Hs as (z & E & [= <-]).
    apply call_dpf in E as [E1 E2]; [|now destruct o]. unfold vw, after_call. cbn [y_m]. rewrite E1. eapply run_ext; [exact H|exact E2].
  - unfold go_on in Hs. destruct (y_call s _) as [k|]; [|discriminate]. apply bind_inv in Hs as (z & E & [= <-]).
    apply call_dpf in E as [E1 E2]; [|exact I]. unfold vw, after_call. cbn [y_m]. rewrite E1. eapply run_ext; [exact H|exact E2].
Qed.
Lemma RunInv_reach s : yreach s -> RunInv (vw s) (dpf s).
Proof.
  intros R. cut (yreach s /\ RunInv (vw s) (dpf s)); [tauto|].
  refine (@reach_inv _ _ step (fun s => yreach s /\ RunInv (vw s) (dpf s)) _ _ _ s R).
  - split; [apply reach_refl|]. constructor; [|reflexivity|reflexivity]. intros o to k [[= <- <-]|[]] _. discriminate.
  - intros s1 l s2 [R1 H1] Hs. pose proof (reach_step _ R1 Hs) as R2. split; [exact R2|]. exact (@RunInv_step s1 l s2 (view_lines R1) H1 Hs (view_lines R2)).
Qed.
(** ** Calls of spawn and of wakers *)
Lemma x_ctx k (e e' : @ex V) l : xs P k e l = Some e' -> match l with LSpawn c _ _ | LWake c _ | LCtx c => forall c', c' <> c -> ctx e' c' = ctx e c' | _ => forall c', ctx e' c' = ctx e c' end.
Proof.
  unfold xs, xstep. destruct (ebug e); [discriminate|]. destruct l as [c t v|c t|c| | |r]; intros H.
  - destruct (ctx e c) eqn:E; try discriminate. destruct (in_dec _ _ _); [|discriminate]. injection H as <-. intros c' N. unfold do_spawn. destruct (running e t); simpl; [reflexivity|now rewrite upd_other].
  - destruct (ctx e c) eqn:E; try discriminate. destruct (in_dec _ _ _); [|discriminate]. injection H as <-. intros c' N. simpl. now rewrite upd_other.
  - unfold ctx_step in H. destruct (ctx e c) eqn:E; try discriminate; injection H as <-; intros c' N; simpl; now rewrite upd_other.
  - destruct (dp e); try discriminate. ifH H. injection H as <-. reflexivity.
  - destruct (dp e); try discriminate. ifH H. injection H as <-. reflexivity.
  - unfold disp_step in H. destruct (dp e) as [|ts|[|t ts]|t ts|t ts|t ts]; try discriminate; try (injection H as <-; reflexivity).
    + destruct (pending e t); [destruct (slot e t)|]; injection H as <-; reflexivity.
    + destruct r; [destruct (slot e t); try discriminate|]; injection H as <-; reflexivity.
    + destruct (slot e t); try discriminate. injection H as <-. reflexivity.
Qed.
Definition is_call (l : @xlabel V) (c : nat) : Prop := match l with LSpawn c' _ _ | LWake c' _ | LCtx c' => c' = c | _ => False end.
Definition own_ctx s (c : nat) : Prop := (exists e, c = ectx e /\ In e (sa_env P)) \/ exists o t, c = hctx o /\ In (o, Some t) (vw s).
Lemma ystep_calls s l s' : step s l = Some s' ->
  (y_call s' = y_call s /\ forall k c, ctx (y_x s' k) c = ctx (y_x s k) c) \/
  (exists c k l' s1, xdo P s k l' = Some s1 /\ s' = after_call c k s1 /\ is_call l' c /\
     ((y_call s c = None /\ own_ctx s c) \/ (y_call s c = Some k /\ l' = LCtx c))).
Proof.
  intros Hs. assert (K : forall k l' e, xs P k (y_x s k) l' = Some e -> (forall c, ~ is_call l' c) -> forall j c, ctx (updo (y_x s) k e j) c = ctx (y_x s j) c).
  { intros k l' e X N j c. destruct (onat_dec j k) as [-> |D]; [rewrite updo_same|now rewrite updo_other]. apply x_ctx in X. destruct l' as [c' ? ?|c' ?|c'| | |]; auto; exfalso; apply (N c'); reflexivity. }
  unfold ystep in Hs. destruct (m_stack (y_m s)) as [|f fs] eqn:ES; [discriminate|].
  destruct l as [i|i| |r|r| | |k t o| |c k t o|c].
  - left. undo. auto.
  - left. unfold take in Hs. undo; auto; (split; [reflexivity|]); eapply K; eauto; destruct (sa_unpend P); intros ? [].
  - left. unfold hstep, dstep in Hs. undo; auto; (split; [reflexivity|]); eapply K; eauto; intros ? [].
  - left. unfold done in Hs. undo; auto; (split; [reflexivity|]); eapply K; eauto; intros ? [].
  - left. undo. auto.
  - left. undo. auto.
  - left. undo. auto.
  - right. destruct (f_task f) as [tt|] eqn:ET; [|discriminate]. destruct (calm _); [|discriminate]. unfold ucall in Hs. destruct (free s _) eqn:F; [|discriminate]. apply bind_inv in Hs as (z & E & [= <-]).
    exists (hctx (f_line f)), k, (match o with Some v => LSpawn (hctx (f_line f)) t v | None => LWake (hctx (f_line f)) t end), z. split; [exact E|]. split; [reflexivity|]. split; [now destruct o|].
    left. split; [unfold free in F; destruct (y_call s _); congruence|]. right. exists (f_line f), tt. split; [reflexivity|]. unfold vw, view_of. rewrite ES. left. now rewrite ET.
  - right. unfold go_on in Hs. destruct (y_call s _) as [k|] eqn:C; [|discriminate]. apply bind_inv in Hs as (z & E & [= <-]). exists (hctx (f_line f)), k, (LCtx (hctx (f_line f))), z. simpl. auto 7.
  - right. destruct (existsb _ _) eqn:X; [|discriminate]. unfold ucall in Hs. destruct (free s _) eqn:F; [|discriminate]. apply bind_inv in Hs as (z & E & [= <-]).
    exists (ectx c), k, (match o with Some v => LSpawn (ectx c) t v | None => LWake (ectx c) t end), z. split; [exact E|]. split; [reflexivity|]. split; [now destruct o|].
    left. split; [unfold free in F; destruct (y_call s _); congruence|]. left. exists c. split; [reflexivity|]. apply existsb_exists in X as (y & Y & E2). apply Nat.eqb_eq in E2. now subst.
  - right. unfold go_on in Hs. destruct (y_call s _) as [k|] eqn:C; [|discriminate]. apply bind_inv in Hs as (z & E & [= <-]). exists (ectx c), k, (LCtx (ectx c)), z. simpl. auto 7.
Qed.
Lemma ystep_vw s l s' : step s l = Some s' -> match l with YHandler | YDone _ => True | YTake i => In i (l_lines A) /\ vw s' = (Some i, None) :: vw s | _ => vw s' = vw s end.
Proof.
  unfold ystep. intros Hs. destruct (m_stack (y_m s)) as [|f fs] eqn:ES; [discriminate|].
  destruct l as [i|i| |r|r| | |k t o| |c k t o|c]; auto.
  - undo. reflexivity.
  - unfold take in Hs. undo; apply mview in M as (o1 & to1 & rest & V1 & I & V2); cbn [y_m] in *; unfold vw; cbn [y_m]; rewrite V2, V1; auto.
  - undo. apply mview in M as (o1 & to1 & rest & V1 & V2). unfold vw. cbn [y_m]. congruence.
  - undo. apply mview in M as (o1 & to1 & rest & V1 & V2). unfold vw. cbn [y_m]. congruence.
  - undo. apply mview in M as (o1 & to1 & rest & V1 & V2). unfold vw. cbn [y_m]. congruence.
  - unfold ucall in Hs. undo; reflexivity.
  - unfold go_on in Hs. undo; reflexivity.
  - unfold ucall in Hs. undo; reflexivity.
  - unfold go_on in Hs. undo; reflexivity.
Qed.
Lemma ystep_view s l s' o t : step s l = Some s' -> In (o, Some t) (vw s) -> In (o, Some t) (vw s') \/ y_call s (hctx o) = None.
Proof.
  intros Hs I. pose proof (ystep_vw _ _ Hs) as Hv.
  assert (K : forall f fs, m_stack (y_m s) = f :: fs -> free s (hctx (f_line f)) = true -> (exists l', mstep A (y_m s) l' = Some (y_m s')) -> In (o, Some t) (vw s') \/ y_call s (hctx o) = None).
  { intros f fs ES F [l' M]. apply mview in M as (o1 & to1 & rest & V1 & V2). fold (vw s) in V1. fold (vw s') in V2. rewrite V1 in I. unfold vw, view_of in V1. rewrite ES in V1. simpl in V1. injection V1 as E1 E2 E3. subst o1.
    destruct l'; try (left; rewrite V2; exact I).
    - left. destruct V2 as [_ ->]. now right.
    - left. destruct V2 as (-> & _ & ->). destruct I as [I|I]; [discriminate|now right].
    - destruct V2 as (_ & ->). destruct I as [I|I]; [right|left; now right]. injection I as <- _. unfold free in F. destruct (y_call s (hctx (f_line f))); congruence.
    - left. destruct V2 as (-> & _ & _ & ->). destruct I as [I|I]; [discriminate|exact I]. }
  destruct l; try (left; rewrite Hv; exact I).
  - left. destruct Hv as [_ ->]. now right.
  - pose proof Hs as Hs'. unfold ystep in Hs. destruct (m_stack (y_m s)) as [|f fs] eqn:ES; [discriminate|]. destruct (free s _) eqn:F; [|discriminate]. destruct (ystep_mpart _ _ Hs') as [E|E]; [left; unfold vw; now rewrite E|]. exact (K f fs eq_refl F E).
  - pose proof Hs as Hs'. unfold ystep in Hs. destruct (m_stack (y_m s)) as [|f fs] eqn:ES; [discriminate|]. destruct (free s _) eqn:F; [|discriminate]. destruct (ystep_mpart _ _ Hs') as [E|E]; [left; unfold vw; now rewrite E|]. exact (K f fs eq_refl F E).
Qed.

Record CallInv s : Prop := {
  C_call : forall k c, ctx (y_x s k) c <> CIdle <-> y_call s c = Some k;
  C_ctx : forall c k, y_call s c = Some k -> own_ctx s c
}.
Lemma CallInv_step s l s' : CallInv s -> step s l = Some s' -> CallInv s'.
Proof.
  intros H Hs. assert (G : forall c k, y_call s c = Some k -> own_ctx s' c).
  { intros c k C. destruct (C_ctx H _ C) as [X|(o & t & -> & I)]; [now left|]. destruct (@ystep_view _ _ _ _ _ Hs I) as [I'|X]; [right; eauto|congruence]. }
  destruct (ystep_calls _ _ Hs) as [[E1 E2]|(c & k & l' & s1 & X & -> & L & O)].
  - constructor; [intros k c; rewrite E1, E2; apply (C_call H)|]. intros c k. rewrite E1. apply G.
  - apply xdo_inv in X as (e & X & ->). cbn [y_m y_x y_pend y_ran y_call after_call] in *. unfold after_call in *. cbn [y_m y_x y_pend y_ran y_call] in *. rewrite !updo_same in *.
    assert (EX : forall j c', j <> k \/ c' <> c -> ctx (updo (y_x s) k e j) c' = ctx (y_x s j) c').
    { intros j c' D. destruct (onat_dec j k) as [-> |N]; [rewrite updo_same|now rewrite updo_other]. destruct D as [D|D]; [congruence|]. apply x_ctx in X. destruct l'; simpl in L; subst; try contradiction; auto. }
    assert (O' : forall j, j <> k -> ctx (y_x s j) c = CIdle).
    { intros j D. assert (Z : ~ ctx (y_x s j) c <> CIdle) by (rewrite (C_call H); destruct O as [[-> _]|[-> _]]; congruence). destruct (ctx (y_x s j) c); auto; exfalso; apply Z; discriminate. }
    constructor; cbn [y_x y_call].
    + intros j c'. destruct (Nat.eq_dec c' c) as [-> |Nc].
      * rewrite upd_same. destruct (onat_dec j k) as [-> |Nj]; [rewrite !updo_same; destruct (ctx e c); split; try discriminate; try reflexivity; intros X0; congruence|].
        rewrite EX by auto. rewrite (O' j Nj). split; [congruence|]. destruct (ctx e c); congruence.
      * rewrite upd_other by exact Nc. rewrite EX by auto. apply (C_call H).
    + intros c' j. destruct (Nat.eq_dec c' c) as [-> |Nc]; [|rewrite upd_other by exact Nc; apply G]. intros _.
      destruct O as [[_ [W|(o & t & -> & W)]]|[C _]]; [now left| |exact (G c k C)]. right. exists o, t. split; [reflexivity|exact W].
Qed.
Lemma CallInv_reach s : yreach s -> CallInv s.
Proof.
  refine (@reach_inv _ _ step CallInv _ _ _ s).
  - constructor; simpl; [intros; split; congruence|discriminate].
  - intros s1 l s2. apply CallInv_step.
Qed.

(** ** Pend bits *)
Record PendInv s : Prop := {
  N_hw : forall i, y_pend s i = true -> In i (l_lines A) /\ exists t, sa_hw P i = Some t;
  N_irq : forall k, irq (y_x s k) = true \/ (exists c, ctx (y_x s k) c <> CIdle) -> sa_polls P k <> [];
  N_bug : forall k, ebug (y_x s k) = true -> dp (y_x s k) <> DIdle
}.
Lemma x_pend k (e e' : @ex V) l : xs P k e l = Some e' -> (irq e = true \/ (exists c, ctx e c <> CIdle) -> sa_polls P k <> []) -> irq e' = true \/ (exists c, ctx e' c <> CIdle) -> sa_polls P k <> [].
Proof.
  unfold xs, xstep. destruct (ebug e); [discriminate|]. intros H K.
  assert (Z : forall e2, irq e2 = irq e \/ irq e2 = false -> ctx e2 = ctx e -> irq e2 = true \/ (exists c, ctx e2 c <> CIdle) -> sa_polls P k <> []).
  { intros e2 E1 E2 [X|X]; apply K; [left; destruct E1; congruence|right; now rewrite E2 in X]. }
  destruct l as [c t v|c t|c| | |r].
  - destruct (ctx e c); try discriminate. destruct (in_dec _ _ _) as [I|]; [|discriminate]. intros _ E. rewrite E in I. destruct I.
  - destruct (ctx e c); try discriminate. destruct (in_dec _ _ _) as [I|]; [|discriminate]. intros _ E. rewrite E in I. destruct I.
  - intros _. apply K. right. exists c. unfold ctx_step in H. destruct (ctx e c); [discriminate H|intros Y; discriminate Y..].
  - destruct (dp e); try discriminate. ifH H. injection H as <-. apply Z; simpl; auto.
  - destruct (dp e); try discriminate. ifH H. injection H as <-. apply Z; simpl; auto.
  - unfold disp_step in H. destruct (dp e) as [|ts|[|t ts]|t ts|t ts|t ts]; try discriminate; try (injection H as <-; apply Z; simpl; auto).
    + destruct (pending e t); [destruct (slot e t)|]; injection H as <-; apply Z; simpl; auto.
    + destruct r; [destruct (slot e t); try discriminate|]; injection H as <-; apply Z; simpl; auto.
    + destruct (slot e t); try discriminate. injection H as <-. apply Z; simpl; auto.
Qed.
Lemma x_bug k (e e' : @ex V) l : xs P k e l = Some e' -> ebug e' = true -> dp e' <> DIdle.
Proof.
  unfold xs, xstep. destruct (ebug e) eqn:Eb; [discriminate|]. intros H.
  destruct l as [c t v|c t|c| | |r].
  - destruct (ctx e c); try discriminate. destruct (in_dec _ _ _) as [I|]; [|discriminate]. injection H as <-. unfold do_spawn. destruct (running e t); simpl; congruence.
  - destruct (ctx e c); try discriminate. destruct (in_dec _ _ _) as [I|]; [|discriminate]. injection H as <-. simpl. congruence.
  - unfold ctx_step in H. destruct (ctx e c); try discriminate; injection H as <-; simpl; congruence.
  - destruct (dp e); try discriminate. ifH H. injection H as <-. simpl. congruence.
  - destruct (dp e); try discriminate. ifH H. injection H as <-. simpl. congruence.
  - unfold disp_step in H. destruct (dp e) as [|ts|[|t ts]|t ts|t ts|t ts] eqn:Ed; try discriminate; try (injection H as <-; simpl; congruence).
    + destruct (pending e t); [destruct (slot e t)|]; injection H as <-; simpl; congruence.
    + destruct r; [destruct (slot e t); try discriminate|]; injection H as <-; simpl; congruence.
    + destruct (slot e t); try discriminate. injection H as <-. simpl. congruence.
Qed.
Lemma ystep_pend s l s' i : step s l = Some s' -> y_pend s' i = true -> y_pend s i = true \/ (l = YRaise i /\ In i (l_lines A) /\ sa_hw P i <> None).
Proof.
  intros Hs. destruct l as [j|j| |r|r| | |k t o| |c k t o|c].
  1:{ unfold ystep in Hs. destruct (m_stack (y_m s)); [discriminate|]. destruct (sa_hw P j) eqn:Eh; [|discriminate]. destruct (existsb _ _) eqn:X; [|discriminate]. injection Hs as <-. cbn [y_pend].
      destruct (Nat.eq_dec i j) as [-> |N]; [|rewrite upd_other by exact N; now left]. intros _. right. split; [reflexivity|]. split; [|congruence]. apply existsb_exists in X as (y & Y & E). apply Nat.eqb_eq in E. now subst. }
  1:{ unfold ystep, take in Hs. undo; auto. destruct (Nat.eq_dec i j) as [-> |N]; [rewrite upd_same; discriminate|rewrite upd_other by exact N; auto]. }
  all: un Hs; auto.
Qed.
Lemma PendInv_reach s : yreach s -> PendInv s.
Proof.
  refine (@reach_inv _ _ step PendInv _ _ _ s).
  - constructor; simpl; try discriminate. intros k [|[c X]]; congruence.
  - intros s1 l s2 H Hs. constructor.
    + intros i X. destruct (ystep_pend _ _ _ Hs X) as [Y|(_ & Y & Z)]; [exact (N_hw H _ Y)|]. split; [exact Y|]. destruct (sa_hw P i); [eauto|congruence].
    + intros k. destruct (ystep_xpart _ _ Hs k) as [E|[l' E]]; [rewrite E; apply (N_irq H)|]. apply (x_pend _ _ _ E). apply (N_irq H).
    + intros k. destruct (ystep_xpart _ _ Hs k) as [E|[l' E]]; [rewrite E; apply (N_bug H)|]. exact (x_bug _ _ _ E).
Qed.
End Proofs.
