(** The whole application comes to rest when user code returns (SystemModel.v). *)
From Verif Require Import Base LTS LockModel LockSpec LockProofs LockFinal StackBound ExecModel ExecSpec ExecProofs ExecProgress SystemModel SystemSpec SystemProofs.
Set Implicit Arguments.

(** Sums over lists *)
Lemma sum_same {X} (f g : X -> nat) L : (forall j, In j L -> g j = f j) -> list_sum (map g L) = list_sum (map f L).
Proof. intros H. f_equal. now apply map_ext_in. Qed.
Lemma sum_le {X} (f g : X -> nat) L : (forall j, In j L -> g j <= f j) -> list_sum (map g L) <= list_sum (map f L).
Proof. induction L as [|a L IH]; simpl; intros H; [lia|]. pose proof (H a (or_introl eq_refl)). specialize (IH (fun j J => H j (or_intror J))). lia. Qed.
Lemma sum_lt {X} (f g : X -> nat) L i : In i L -> (forall j, In j L -> g j <= f j) -> g i < f i -> list_sum (map g L) < list_sum (map f L).
Proof.
  induction L as [|a L IH]; simpl; intros I H Hi; [destruct I|]. pose proof (H a (or_introl eq_refl)). destruct I as [-> |I].
  - pose proof (@sum_le _ f g L (fun j J => H j (or_intror J))). lia.
  - specialize (IH I (fun j J => H j (or_intror J)) Hi). lia.
Qed.
Lemma sum_in {X} (f g : X -> nat) L i : NoDup L -> In i L -> (forall j, In j L -> j <> i -> g j = f j) -> list_sum (map g L) + f i = list_sum (map f L) + g i.
Proof.
  induction L as [|a L IH]; simpl; intros N I H; [destruct I|]. apply NoDup_cons_iff in N as [Na N]. destruct I as [-> |I].
  - rewrite (@sum_same _ f g L); [lia|]. intros j J. apply H; [now right|]. intros ->. tauto.
  - rewrite (H a (or_introl eq_refl)) by (intros ->; tauto). specialize (IH N I (fun j J => H j (or_intror J))). lia.
Qed.
Lemma sum_nin {X} (f g : X -> nat) L i : ~ In i L -> (forall j, In j L -> j <> i -> g j = f j) -> list_sum (map g L) = list_sum (map f L).
Proof. intros I H. apply sum_same. intros j J. apply H; [exact J|]. intros ->. tauto. Qed.
Lemma sum_drop {X} (f g : X -> nat) L i d : In i L -> (forall j, In j L -> g j <= f j) -> g i + d <= f i -> list_sum (map g L) + d <= list_sum (map f L).
Proof.
  induction L as [|a L IH]; simpl; intros I H Hi; [destruct I|]. pose proof (H a (or_introl eq_refl)). destruct I as [-> |I].
  - pose proof (@sum_le _ f g L (fun j J => H j (or_intror J))). lia.
  - specialize (IH I (fun j J => H j (or_intror J)) Hi). lia.
Qed.

Section Progress.
Context {V : Type} (B : backend) (P : sapp) (Hok : sapp_ok P).
Notation A := (sa_lock P).
Notation sys := (sys V B).
Notation step := (@ystep V B P).
Implicit Types (s : sys) (f : frame B).

Ltac ifH H := match type of H with (if ?c then _ else _) = _ => destruct c eqn:?; [|discriminate H] end.

(** ** What is left to do *)
Definition W (k : option nat) : nat := 4 * length (sa_polls P k) + 4.
Definition rank (p : @cpc V) : nat := match p with CIdle => 0 | CWrite _ _ _ => 3 | CSet _ _ _ => 2 | CPend _ _ => 1 end.
Definition hwc (ran : nat -> bool) f : nat :=
  match f_line f with
  | Some i => match sa_hw P i with Some _ => (if ran i then 0 else 2) + match f_task f with Some _ => 1 | None => 0 end | None => 0 end
  | None => 0
  end.
Definition ec f : nat := list_sum (map (cost A) (f_ents f)).
Definition fc ran f : nat := 1 + ec f + hwc ran f.
Definition xc (k : option nat) (e : @ex V) : nat :=
  if ebug e then 0 else left_to_do (dp e) + (if irq e then match dp e with DEnter _ => 0 | _ => W k end else 0).
Definition MF ran (fs : list (frame B)) : nat := list_sum (map (fc ran) fs).
Definition MX (x : option nat -> @ex V) : nat := list_sum (map (fun i => xc (Some i) (x (Some i))) (l_lines A)).
Definition MP (p : nat -> bool) : nat := list_sum (map (fun i => if p i then 4 else 0) (l_lines A)).
Definition cs : list nat := 0 :: map (fun i => hctx (Some i)) (l_lines A) ++ map ectx (sa_env P).
Definition MC (call : nat -> option (option nat)) (x : option nat -> @ex V) : nat :=
  list_sum (map (fun c => match call c with Some k => rank (ctx (x k) c) + W k | None => 0 end) cs).
Definition mu s : nat := MF (y_ran s) (m_stack (y_m s)) + MX (y_x s) + MP (y_pend s) + MC (y_call s) (y_x s).

Lemma MX_in x i e : In i (l_lines A) -> MX (updo x (Some i) e) + xc (Some i) (x (Some i)) = MX x + xc (Some i) e.
Proof.
  intros I. unfold MX. rewrite (@sum_in _ (fun i => xc (Some i) (x (Some i))) (fun j => xc (Some j) (updo x (Some i) e (Some j))) _ i (so_nodup Hok) I).
  - now rewrite updo_same.
  - intros j _ N. rewrite updo_other; congruence.
Qed.
Lemma MX_none x e : MX (updo x None e) = MX x.
Proof. reflexivity. Qed.
Lemma MX_le x k e d : xc k e <= xc k (x k) + d -> MX (updo x k e) <= MX x + d.
Proof.
  intros H. destruct k as [i|]; [|rewrite MX_none; lia]. destruct (in_dec Nat.eq_dec i (l_lines A)) as [I|I]; [pose proof (@MX_in x i e I); lia|].
  unfold MX. rewrite (@sum_nin _ (fun i => xc (Some i) (x (Some i))) (fun j => xc (Some j) (updo x (Some i) e (Some j))) _ i I); [lia|].
  intros j _ N. rewrite updo_other; congruence.
Qed.
Lemma MP_in p i : In i (l_lines A) -> p i = true -> MP (upd p i false) + 4 = MP p.
Proof.
  intros I E. unfold MP. pose proof (@sum_in _ (fun i => if p i then 4 else 0) (fun j => if upd p i false j then 4 else 0) _ i (so_nodup Hok) I) as H.
  cbv beta in H. rewrite E, upd_same in H. enough (forall j, In j (l_lines A) -> j <> i -> (if upd p i false j then 4 else 0) = if p j then 4 else 0) by (specialize (H H0); lia). intros j _ N. now rewrite upd_other.
Qed.
Lemma MC_same call x x' : (forall k c, ctx (x' k) c = ctx (x k) c) -> MC call x' = MC call x.
Proof. intros H. unfold MC. apply sum_same. intros c _. destruct (call c); [now rewrite H|reflexivity]. Qed.
Lemma MF_ran ran i b fs : (forall f, In f fs -> f_line f <> Some i) -> MF (upd ran i b) fs = MF ran fs.
Proof.
  intros H. unfold MF. apply sum_same. intros f I. unfold fc, hwc. destruct (f_line f) as [j|] eqn:E; [|reflexivity]. rewrite upd_other; [reflexivity|]. intros ->. exact (H f I E).
Qed.

(** Steps of the machine on frames *)
Lemma mframes (m m' : mach B) l : mstep A m l = Some m' -> exists f fs, m_stack m = f :: fs /\
  match l with
  | LTake i => In i (l_lines A) /\ exists x, m_stack m' = mkF (Some i) None x [] :: f :: fs
  | LStart t => f_task f = None /\ m_stack m' = set_task f (Some t) :: fs
  | LStop => m_stack m' = set_task f None :: fs
  | LMicro | LUnlock => exists es, m_stack m' = set_ents f es :: fs /\ list_sum (map (cost A) es) < ec f
  | LRet => m_stack m' = fs
  | LLock _ => True
  end.
Proof.
  intros H. destruct (mview _ _ _ H) as (o & to & rest & _ & HV). unfold mstep in H. destruct (m_stack m) as [|f fs] eqn:ES; [discriminate|]. exists f, fs. split; [reflexivity|].
  destruct l as [i|t| |r| | |]; auto.
  - split; [tauto|]. ifH H. injection H as <-. cbn. eauto.
  - destruct (f_task f); [discriminate|]. destruct (f_ents f); [|discriminate]. split; [reflexivity|]. ifH H. now injection H as <-.
  - destruct (f_task f); [|discriminate]. destruct (f_ents f); [|discriminate]. now injection H as <-.
  - destruct (micro A (m_mask m) f) as [[m1 f1]|] eqn:EM; [|discriminate]. injection H as <-. cbn [m_stack]. unfold micro, ec in *. destruct (f_ents f) as [|e es] eqn:Ee; [discriminate|].
    destruct (e_ph e) as [k| |k] eqn:Ep; [|discriminate|].
    + destruct (nth_error (enter B _) k) eqn:En; injection EM as <- <-; eexists; (split; [reflexivity|]); simpl; unfold cost; simpl; rewrite ?Ep; [|lia].
      assert (k < length (enter B (l_ceil A (e_res e)))) by (apply nth_error_Some; congruence). lia.
    + destruct (nth_error (leave B _ _) k) eqn:En; injection EM as <- <-; eexists; (split; [reflexivity|]); simpl; unfold cost; simpl; rewrite ?Ep; [|lia].
      assert (k < length (leave B (l_ceil A (e_res e)) (e_saved e))) by (apply nth_error_Some; congruence). lia.
  - unfold ec. destruct (f_ents f) as [|e es] eqn:Ee; [discriminate|]. destruct (e_ph e) as [k| |k] eqn:Ep; try discriminate. injection H as <-. eexists. split; [reflexivity|]. simpl. unfold cost; simpl. rewrite ?Ep. lia.
  - destruct (f_line f); [|discriminate]. destruct (f_task f); [discriminate|]. destruct (f_ents f); [|discriminate]. destruct fs; [discriminate|]. now injection H as <-.
Qed.

(** Steps of an executor *)
Lemma xc_disp k (e e' : @ex V) r : xs P k e (LDisp r) = Some e' -> xc k e' < xc k e.
Proof.
  unfold xs. intros H. destruct (@disp_decreases _ _ _ _ _ _ H) as [D|D]; unfold xstep in H; destruct (ebug e) eqn:Eb; try discriminate; unfold xc; rewrite Eb.
  - rewrite D. unfold disp_step in H. destruct (dp e); [discriminate|cbn; lia..].
  - unfold disp_step in H. destruct (ebug e'); [destruct (dp e); cbn in *; lia|].
    destruct (dp e) as [|ts|[|t ts]|t ts|t ts|t ts] eqn:Ed; try discriminate.
    + injection H as <-. simpl. destruct (irq e); simpl; lia.
    + injection H as <-. simpl. destruct (irq e); simpl; lia.
    + injection H as <-. simpl. destruct (running e t); simpl; destruct (irq e); simpl; lia.
    + destruct (pending e t); [destruct (slot e t)|]; injection H as <-; simpl in *; rewrite ?Ed in *; destruct (irq e); simpl in *; lia.
    + destruct r; [destruct (slot e t); try discriminate|]; injection H as <-; simpl; destruct (irq e); simpl; lia.
    + destruct (slot e t); try discriminate. injection H as <-. simpl. destruct (irq e); simpl; lia.
Qed.
Lemma xc_enter i (e e' : @ex V) (b : bool) : xs P (Some i) e (if b then LAccept else LDispatch) = Some e' -> xc (Some i) e' + 1 < xc (Some i) e.
Proof.
  unfold xs, xstep. destruct (ebug e) eqn:Eb; [discriminate|]. unfold xc. rewrite Eb. destruct b; destruct (dp e) eqn:Ed; try discriminate; simpl; destruct (irq e) eqn:Ei; try discriminate; intros [= <-]; simpl; rewrite Eb, ?Ei; unfold W; lia.
Qed.
Lemma x_go k (e e' : @ex V) c : xs P k e (LCtx c) = Some e' -> rank (ctx e' c) + 1 = rank (ctx e c) /\ (xc k e' = xc k e \/ ctx e' c = CIdle /\ xc k e' <= xc k e + W k).
Proof.
  unfold xs, xstep. destruct (ebug e) eqn:Eb; [discriminate|]. unfold ctx_step. destruct (ctx e c) eqn:Ec; try discriminate; intros [= <-]; simpl; rewrite ?upd_same; unfold xc; simpl; rewrite Eb; (split; [simpl; lia|]); auto.
  right. split; [reflexivity|]. destruct (is_zero k), (irq e), (dp e); simpl; lia.
Qed.

Ltac undo :=
  repeat match goal with
  | H : bind _ _ = Some _ |- _ => let x := fresh "z" in let E := fresh "E" in apply bind_inv in H as (x & E & H)
  | H : xdo _ _ _ _ = Some _ |- _ => let e := fresh "e" in let X := fresh "X" in apply xdo_inv in H as (e & X & ->)
  | H : mdo _ _ _ = Some _ |- _ => let m := fresh "m" in let M := fresh "M" in apply mdo_inv in H as (m & M & ->)
  | H : Some _ = Some _ |- _ => injection H as <-
  | H : None = Some _ |- _ => discriminate H
  | H : (match ?o with _ => _ end) = Some _ |- _ => destruct o eqn:?
  end; cbn [y_m y_x y_pend y_ran y_call] in *.

Context (m0 : bm B) (x0 : bs B).
Notation yreach := (yreach P m0 x0).

Lemma fc_ents ran f es : fc ran (set_ents f es) + ec f = fc ran f + list_sum (map (cost A) es).
Proof. unfold fc, ec, hwc. simpl. lia. Qed.
Lemma fc_disp ran f t : (forall i, f_line f = Some i -> sa_hw P i = None) -> fc ran (set_task f t) = fc ran f.
Proof. intros H. unfold fc, ec, hwc. simpl. destruct (f_line f) as [i|]; [|reflexivity]. now rewrite (H i eq_refl). Qed.
Lemma line_in s i to : yreach s -> In (Some i, to) (vw s) -> In i (l_lines A).
Proof.
  intros R I. pose proof (sok_reach (yreach_m R)) as K. unfold vw, view_of in I. apply in_map_iff in I as (f & E & I). injection E as E _. clear R. induction (m_stack (y_m s)) as [|g fs IH]; [destruct I|].
  simpl in K. destruct K as [_ K]. destruct fs as [|h fs]; [destruct I as [<- |[]]; congruence|]. destruct K as ((j & J & Jin) & _ & K). destruct I as [<- |I]; [congruence|exact (IH I K)].
Qed.
Lemma own_in s c : yreach s -> own_ctx P s c -> In c cs.
Proof.
  intros R [(e & -> & I)|(o & t & -> & I)]; unfold cs; simpl.
  - right. apply in_app_iff. right. now apply in_map.
  - destruct o as [i|]; [|now left]. right. apply in_app_iff. left. apply in_map_iff. exists i. split; [reflexivity|]. eapply line_in; eauto.
Qed.

Lemma mu_call s c k s1 : yreach s -> y_call s c = Some k -> xdo P s k (LCtx c) = Some s1 -> mu (after_call c k s1) < mu s.
Proof.
  intros R C X. pose proof (CallInv_reach R) as HC. apply xdo_inv in X as (e & X & ->). unfold mu, after_call. cbn [y_m y_x y_pend y_ran y_call]. rewrite updo_same.
  destruct (@x_go _ _ _ _ X) as [Hr Hx]. pose proof (@x_ctx _ P _ _ _ _ X) as Ho. simpl in Ho.
  set (call' := upd (y_call s) c match ctx e c with CIdle => None | _ => Some k end).
  assert (Ic : In c cs) by (eapply own_in; [exact R|eapply (C_ctx HC); exact C]).
  assert (Z : forall d, match call' c with Some k => rank (ctx (updo (y_x s) k e k) c) + W k | None => 0 end + d <= rank (ctx (y_x s k) c) + W k ->
              MC call' (updo (y_x s) k e) + d <= MC (y_call s) (y_x s)).
  { intros d D. unfold MC. apply sum_drop with (i := c); [exact Ic| |].
    - intros j _. unfold call'. destruct (Nat.eq_dec j c) as [-> |N].
      + rewrite upd_same, C. destruct (ctx e c) eqn:Ee; try lia; rewrite updo_same; rewrite Ee; simpl in *; lia.
      + rewrite upd_other by exact N. destruct (y_call s j) as [k'|]; [|lia]. destruct (onat_dec k' k) as [-> |Nk]; [rewrite updo_same, Ho by exact N; lia|now rewrite updo_other].
    - rewrite C. unfold call' in *. rewrite upd_same in *. destruct (ctx e c) eqn:Ee; rewrite ?updo_same in *; rewrite ?Ee in *; simpl in *; lia. }
  assert (Y : call' c = match ctx e c with CIdle => None | _ => Some k end) by (unfold call'; now rewrite upd_same).
  destruct Hx as [Hx|[Hx Hle]].
  - assert (MX (updo (y_x s) k e) <= MX (y_x s) + 0) by (apply MX_le; lia). assert (MC call' (updo (y_x s) k e) + 1 <= MC (y_call s) (y_x s)); [|lia].
    apply Z. rewrite Y. destruct (ctx e c) eqn:Ee; rewrite ?updo_same; rewrite ?Ee in *; simpl in *; lia.
  - assert (MX (updo (y_x s) k e) <= MX (y_x s) + W k) by (apply MX_le; exact Hle). assert (MC call' (updo (y_x s) k e) + (1 + W k) <= MC (y_call s) (y_x s)); [|lia].
    apply Z. rewrite Y, Hx. rewrite Hx in Hr. simpl in Hr. lia.
Qed.

Lemma disp_line o k : disp_of P o = Some k -> forall i, o = Some i -> sa_hw P i = None.
Proof. intros H i ->. eapply disp_of_hw; eauto. Qed.
Lemma MX_disp x o e r : (forall i, o = Some i -> In i (l_lines A)) -> o <> None -> xs P o (x o) (LDisp r) = Some e -> MX (updo x o e) < MX x.
Proof.
  intros I N X. destruct o as [i|]; [|congruence]. pose proof (@xc_disp _ _ _ _ X). pose proof (@MX_in x i e (I i eq_refl)). lia.
Qed.
Lemma vw_top s f fs : m_stack (y_m s) = f :: fs -> In (f_line f, f_task f) (vw s).
Proof. intros E. unfold vw, view_of. rewrite E. now left. Qed.
Lemma below_other s f fs i : yreach s -> m_stack (y_m s) = f :: fs -> f_line f = Some i -> forall g, In g fs -> f_line g <> Some i.
Proof.
  intros R E L g G X. pose proof (view_lines R) as N. unfold vw, view_of in N. rewrite E in N. simpl in N. rewrite L in N. apply NoDup_cons_iff in N as [N _]. apply N. rewrite map_map. rewrite <- X. now apply in_map with (f := fun g => fst (f_line g, f_task g)).
Qed.


Lemma MC_upd call (x : option nat -> @ex V) k l e : xs P k (x k) l = Some e -> (match l with LSpawn _ _ _ | LWake _ _ | LCtx _ => False | _ => True end) -> MC call (updo x k e) = MC call x.
Proof.
  intros X L. apply MC_same. intros j c. destruct (onat_dec j k) as [-> |N]; [rewrite updo_same|now rewrite updo_other]. pose proof (@x_ctx _ P _ _ _ _ X) as Ho. destruct l; try contradiction; apply Ho.
Qed.
Lemma MF_cons ran f fs : MF ran (f :: fs) = fc ran f + MF ran fs.
Proof. reflexivity. Qed.
Lemma fc_pos ran f : 1 <= fc ran f.
Proof. unfold fc. lia. Qed.

Lemma mu_dec s l s' : yreach s -> cstep P s l = Some s' -> mu s' < mu s.
Proof.
  intros R Hc. unfold cstep in Hc. destruct (closing s l) eqn:CL; [|discriminate]. pose proof (reach_step _ R Hc) as R'. pose proof Hc as Hs.
  unfold ystep in Hs. destruct (m_stack (y_m s)) as [|f fs] eqn:ES; [discriminate|].
  pose proof (@vw_top _ _ _ ES) as HT. pose proof (fun i (E : f_line f = Some i) => @below_other _ _ _ i R ES E) as HB.
  assert (HI : forall i, f_line f = Some i -> In i (l_lines A)). { intros i E. rewrite E in HT. eapply line_in. exact R. exact HT. }
  destruct l as [i|i| |r|r| | |k t o| |c k t o|c]; try discriminate CL.
  - unfold take in Hs. destruct (sa_hw P i) as [t|] eqn:Eh.
    + undo. pose proof (fun f fs => @below_other _ f fs i R') as HB'. unfold mu in *. cbn [y_m y_x y_pend y_ran y_call] in *.
      apply mframes in M as (f1 & fs1 & E1 & I & x & E2). rewrite ES in E1. injection E1 as <- <-. specialize (HB' _ _ E2 eq_refl). rewrite E2, ES, !MF_cons.
      pose proof (@MF_ran (y_ran s) i false (f :: fs) HB') as X. rewrite !MF_cons in X. pose proof (@MP_in _ _ I Heqb) as Y. assert (F : fc (upd (y_ran s) i false) (mkF (Some i) None x []) = 3) by (unfold fc, ec, hwc; simpl; rewrite Eh, upd_same; reflexivity). lia.
    + undo. unfold mu. cbn [y_m y_x y_pend y_ran y_call] in *. apply mframes in M as (f1 & fs1 & E1 & I & x & E2). cbn [y_m] in E1. rewrite ES in E1. injection E1 as <- <-.
      rewrite E2, ES, !MF_cons. pose proof (@MX_in (y_x s) i e I) as Y. pose proof (@xc_enter _ _ _ _ X) as Z.
      rewrite (@MC_upd _ (y_x s) _ _ _ X) by (destruct (sa_unpend P); exact Logic.I).
      assert (F : fc (y_ran s) (mkF (Some i) None x []) = 1) by (unfold fc, ec, hwc; simpl; rewrite Eh; reflexivity). lia.
  - simpl in CL. rewrite ES in CL. destruct (f_line f) as [i|] eqn:EL; [|discriminate]. ifH Hs. unfold hstep in Hs. rewrite EL in Hs. destruct (f_task f) eqn:ET; [discriminate|]. destruct (disp_of P (Some i)) as [k|] eqn:ED.
    + pose proof (disp_of_self _ _ ED) as ->. pose proof (disp_of_hw _ _ ED) as Eh.
      assert (RT : mdo P s LRet = Some s' -> mu s' < mu s).
      { intros X. clear Hs. undo. apply mframes in M as (f1 & fs1 & E1 & E2). rewrite ES in E1. injection E1 as <- <-. unfold mu. cbn [y_m y_x y_pend y_ran y_call] in *. rewrite E2, ES, MF_cons. pose proof (fc_pos (y_ran s) f). lia. }
      assert (DS : dstep P s (Some i) false = Some s' -> mu s' < mu s).
      { unfold dstep. intros X. clear Hs. apply bind_inv in X as (z & E & X). apply xdo_inv in E as (e & E & ->). cbn [y_x] in X. rewrite updo_same in X.
        assert (Y : MX (updo (y_x s) (Some i) e) < MX (y_x s)) by (eapply MX_disp; [|discriminate|exact E]; intros j J; apply HI; congruence).
        pose proof (@MC_upd (y_call s) (y_x s) _ _ _ E Logic.I) as Z.
        destruct (dp e); undo; unfold mu; cbn [y_m y_x y_pend y_ran y_call] in *; try lia.
        apply mframes in M as (f1 & fs1 & E1 & _ & E2). cbn [y_m] in E1. rewrite ES in E1. injection E1 as <- <-. rewrite E2, ES, !MF_cons. rewrite fc_disp by (intros j J; rewrite EL in J; congruence). lia. }
      destruct (dp (y_x s (Some i))); auto; discriminate.
    + unfold disp_of in ED. destruct (sa_hw P i) as [t|] eqn:Eh; [|discriminate]. destruct (y_ran s i) eqn:Er.
      * undo. apply mframes in M as (f1 & fs1 & E1 & E2). rewrite ES in E1. injection E1 as <- <-. unfold mu. cbn [y_m y_x y_pend y_ran y_call] in *. rewrite E2, ES, MF_cons. pose proof (fc_pos (y_ran s) f). lia.
      * undo. apply mframes in M as (f1 & fs1 & E1 & E3 & E2). rewrite ES in E1. injection E1 as <- <-. unfold mu. cbn [y_m y_x y_pend y_ran y_call] in *. rewrite E2, ES, !MF_cons.
        rewrite MF_ran by (apply HB; reflexivity). assert (F : fc (upd (y_ran s) i true) (set_task f (Some t)) + 1 = fc (y_ran s) f) by (unfold fc, ec, hwc; simpl; rewrite EL, Eh, E3, Er, upd_same; lia). lia.
  - simpl in CL. rewrite ES in CL. destruct (f_line f) as [i|] eqn:EL; [|discriminate]. ifH Hs. unfold done in Hs. rewrite EL in Hs. destruct (f_task f) eqn:ET; [|discriminate]. destruct (f_ents f) eqn:EE; [|discriminate].
    destruct (disp_of P (Some i)) as [k|] eqn:ED.
    + pose proof (disp_of_self _ _ ED) as ->. pose proof (disp_of_hw _ _ ED) as Eh. apply bind_inv in Hs as (z & E & X). apply xdo_inv in E as (e & E & ->).
      assert (Y : MX (updo (y_x s) (Some i) e) < MX (y_x s)) by (eapply MX_disp; [|discriminate|exact E]; intros j J; apply HI; congruence).
      pose proof (@MC_upd (y_call s) (y_x s) _ _ _ E Logic.I) as Z. undo. apply mframes in M as (f1 & fs1 & E1 & E2). cbn [y_m] in E1. rewrite ES in E1. injection E1 as <- <-.
      unfold mu. cbn [y_m y_x y_pend y_ran y_call] in *. rewrite E2, ES, !MF_cons. rewrite fc_disp by (intros j J; rewrite EL in J; congruence). lia.
    + unfold disp_of in ED. destruct (sa_hw P i) as [t|] eqn:Eh; [|discriminate]. undo. apply mframes in M as (f1 & fs1 & E1 & E2). rewrite ES in E1. injection E1 as <- <-.
      unfold mu. cbn [y_m y_x y_pend y_ran y_call] in *. rewrite E2, ES, !MF_cons. assert (F : fc (y_ran s) (set_task f None) + 1 = fc (y_ran s) f) by (unfold fc, ec, hwc; simpl; rewrite EL, Eh, ET; lia). lia.
  - undo. apply mframes in M as (f1 & fs1 & E1 & es & E2 & E3). rewrite ES in E1. injection E1 as <- <-. unfold mu. cbn [y_m y_x y_pend y_ran y_call] in *. rewrite E2, ES, !MF_cons. pose proof (fc_ents (y_ran s) f es). lia.
  - undo. apply mframes in M as (f1 & fs1 & E1 & es & E2 & E3). rewrite ES in E1. injection E1 as <- <-. unfold mu. cbn [y_m y_x y_pend y_ran y_call] in *. rewrite E2, ES, !MF_cons. pose proof (fc_ents (y_ran s) f es). lia.
  - unfold go_on in Hs. destruct (y_call s _) as [k|] eqn:C; [|discriminate]. apply bind_inv in Hs as (z & E & [= <-]). eapply mu_call; eauto.
  - unfold go_on in Hs. destruct (y_call s _) as [k|] eqn:C; [|discriminate]. apply bind_inv in Hs as (z & E & [= <-]). eapply mu_call; eauto.
Qed.

Lemma close_bound ls : forall s s', yreach s -> run (cstep P) s ls = Some s' -> length ls + mu s' <= mu s.
Proof.
  induction ls as [|l ls IH]; intros s s' R H; simpl in *; [injection H as <-; lia|]. destruct (cstep P s l) as [s1|] eqn:E; [|discriminate].
  pose proof (mu_dec _ R E) as D. apply IH in H; [lia|]. unfold cstep in E. destruct (closing s l); [|discriminate]. eapply reach_step; eauto.
Qed.

(** ** Something can always be closed *)
Context (K0 : forall i, In i (l_lines A) -> admits B m0 i = true).
Context (KW : forall s f, yreach s -> m_stack (y_m s) = [f] -> f_ents f = [] -> m_mask (y_m s) = m0).

Lemma bottom s f fs : yreach s -> m_stack (y_m s) = f :: fs -> f_line f = None -> fs = [].
Proof.
  intros R E L. pose proof (sok_reach (yreach_m R)) as K. rewrite E in K. simpl in K. destruct K as [_ K]. destruct fs; [reflexivity|]. destruct K as ((i & X & _) & _). congruence.
Qed.
Lemma not_bottom s f fs i : yreach s -> m_stack (y_m s) = f :: fs -> f_line f = Some i -> fs <> [].
Proof. intros R E L ->. pose proof (sok_reach (yreach_m R)) as K. rewrite E in K. simpl in K. destruct K as [_ K]. congruence. Qed.
Lemma poll_task k (e : @ex V) t ts : xreach (is_zero k) (sa_polls P k) e -> dp e = DIn t ts -> In t (sa_polls P k).
Proof. intros R D. apply (E_run (EInv_reach R)). apply (E_work (EInv_reach R)). now rewrite D. Qed.
Lemma xdo_some s k l e : xs P k (y_x s k) l = Some e -> xdo P s k l = Some (mkY (y_m s) (updo (y_x s) k e) (y_pend s) (y_ran s) (y_call s)).
Proof. unfold xdo. now intros ->. Qed.
Lemma disp_go s k r : yreach s -> ebug (y_x s k) = false -> dp (y_x s k) <> DIdle -> exists e, xs P k (y_x s k) (LDisp r) = Some e.
Proof. intros R Eb D. unfold xs. apply disp_enabled; auto. apply EInv_reach. now apply yreach_x with (m0 := m0) (x0 := x0). Qed.
Lemma call_go s c k : yreach s -> y_call s c = Some k -> ebug (y_x s k) = false -> exists s', go_on P s c = Some s'.
Proof.
  intros R C Eb. unfold go_on. rewrite C. pose proof (proj2 (C_call (CallInv_reach R) k c) C) as N. unfold xdo, xs, xstep. rewrite Eb. unfold ctx_step. destruct (ctx (y_x s k) c); [congruence|simpl; eauto..].
Qed.
Lemma start_go (m : mach B) f fs t : m_stack m = f :: fs -> f_task f = None -> f_ents f = [] -> l_line A t = f_line f -> exists m', mstep A m (LStart t) = Some m'.
Proof. intros E1 E2 E3 E4. unfold mstep. rewrite E1, E2, E3, E4. destruct (f_line f); [rewrite Nat.eqb_refl|]; eauto. Qed.

Lemma progress s : yreach s -> (exists l s', cstep P s l = Some s') \/ bad_poll s \/ at_rest s.
Proof.
  intros R. destruct (m_stack (y_m s)) as [|f fs] eqn:ES.
  { pose proof (sok_reach (yreach_m R)) as K. rewrite ES in K. destruct K. }
  assert (CS : forall l s', closing s l = true -> step s l = Some s' -> exists l s', cstep P s l = Some s').
  { intros l s' C H. exists l, s'. unfold cstep. now rewrite C. }
  assert (BP : forall k, ebug (y_x s k) = true -> bad_poll s) by (intros k X; now exists k).
  pose proof (CallInv_reach R) as HC. pose proof (PendInv_reach R) as HP. pose proof (RunInv_reach R) as HR.
  (* a call by an interrupt handler that is no task *)
  destruct (existsb (fun c => negb (free s (ectx c))) (sa_env P)) eqn:EE.
  { apply existsb_exists in EE as (c & I & F). unfold free in F. destruct (y_call s (ectx c)) as [k|] eqn:C; [|discriminate]. destruct (ebug (y_x s k)) eqn:Eb; [right; left; eauto|left].
    destruct (call_go _ R C Eb) as [s' G]. apply (CS (YEnvCall c) s'); [reflexivity|]. unfold ystep. now rewrite ES. }
  (* a call by what runs *)
  destruct (y_call s (hctx (f_line f))) as [k|] eqn:C.
  { destruct (ebug (y_x s k)) eqn:Eb; [right; left; eauto|left]. destruct (call_go _ R C Eb) as [s' G]. apply (CS YCall s'); [reflexivity|]. unfold ystep. now rewrite ES. }
  assert (Fr : free s (hctx (f_line f)) = true) by (unfold free; now rewrite C).
  (* a lock *)
  destruct (f_ents f) as [|e es] eqn:En.
  2:{ left. destruct (e_ph e) as [k| |k] eqn:Ep.
      - assert (X : exists m, mstep A (y_m s) LMicro = Some m) by (unfold mstep, micro; rewrite ES, En, Ep; destruct (nth_error _ k); eauto). destruct X as [m X].
        eapply (CS YMicro); [reflexivity|]. unfold ystep, mdo. rewrite ES, X. reflexivity.
      - assert (X : exists m, mstep A (y_m s) LUnlock = Some m) by (unfold mstep; rewrite ES, En, Ep; eauto). destruct X as [m X].
        eapply (CS YUnlock); [reflexivity|]. unfold ystep, mdo. rewrite ES, Fr, X. reflexivity.
      - assert (X : exists m, mstep A (y_m s) LMicro = Some m) by (unfold mstep, micro; rewrite ES, En, Ep; destruct (nth_error _ k); eauto). destruct X as [m X].
        eapply (CS YMicro); [reflexivity|]. unfold ystep, mdo. rewrite ES, X. reflexivity. }
  destruct (f_line f) as [i|] eqn:EL.
  - (* a handler *)
    pose proof (@not_bottom _ _ _ _ R ES EL) as NB. assert (Ii : In i (l_lines A)) by (eapply (@line_in s i (f_task f)); [exact R|]; rewrite <- EL; eapply vw_top; eauto).
    assert (C1 : forall l, match l with YHandler | YDone _ => True | _ => False end -> closing s l = true) by (intros [] X; try contradiction; simpl; rewrite ES, EL; reflexivity).
    assert (RET : f_task f = None -> exists s', mdo P s LRet = Some s').
    { intros ET. unfold mdo, mstep. rewrite ES, EL, ET, En. destruct fs; [congruence|eauto]. }
    destruct (f_task f) as [t|] eqn:ET.
    + (* in a task *)
      assert (ST : forall s1 : sys, y_m s1 = y_m s -> exists s', mdo P s1 LStop = Some s').
      { intros s1 E. unfold mdo, mstep. rewrite E, ES, ET, En. eauto. }
      assert (X : bad_poll s \/ exists s', done P s f false = Some s').
      { unfold done. rewrite ET, En, EL. destruct (disp_of P (Some i)) as [k|] eqn:ED; [|right; now apply ST]. pose proof (disp_of_self _ _ ED) as ->.
        destruct (ebug (y_x s (Some i))) eqn:Eb; [left; eauto|right]. assert (I : In (Some i, Some t) (vw s)) by (rewrite <- EL, <- ET; eapply vw_top; eauto).
        destruct (R_run HR _ _ I ED) as [ts D]. destruct (@disp_go s (Some i) false R Eb) as [e X]; [unfold dpf in D; congruence|]. rewrite (xdo_some _ _ _ X). simpl. now apply ST. }
      destruct X as [X|[s' X]]; [tauto|left]. apply (CS (YDone false) s'); [now apply C1|]. unfold ystep. now rewrite ES, EL, Fr.
    + assert (X : bad_poll s \/ exists s', hstep P s f = Some s').
      { unfold hstep. rewrite ET, EL. destruct (disp_of P (Some i)) as [k|] eqn:ED.
        - pose proof (disp_of_self _ _ ED) as ->. destruct (ebug (y_x s (Some i))) eqn:Eb; [left; eauto|right].
          assert (I : In (Some i, None) (vw s)) by (rewrite <- EL, <- ET; eapply vw_top; eauto). pose proof (R_run HR _ _ I ED) as NI. simpl in NI.
          assert (G : dp (y_x s (Some i)) <> DIdle -> exists s', dstep P s (Some i) false = Some s').
          { intros D. destruct (@disp_go s (Some i) false R Eb D) as [e X]. unfold dstep. rewrite (xdo_some _ _ _ X). cbn [bind y_x]. rewrite updo_same. destruct (dp e) eqn:Ed; eauto.
            assert (Re : xreach (is_zero (Some i)) (sa_polls P (Some i)) e) by (eapply reach_step; [exact (yreach_x (Some i) R)|exact X]).
            pose proof (@poll_task (Some i) _ _ _ Re Ed) as It. apply (so_polls Hok) in It as [It _]. unfold mdo. cbn [y_m]. destruct (@start_go (y_m s) f fs t ES ET En) as [m' M]; [congruence|]. rewrite M. eauto. }
          unfold dpf in NI. destruct (dp (y_x s (Some i))) eqn:Ed; [now apply RET|apply G; discriminate..|elim (NI t ts eq_refl)|apply G; discriminate].
        - right. unfold disp_of in ED. destruct (sa_hw P i) as [t|] eqn:Eh; [|discriminate]. destruct (y_ran s i); [now apply RET|].
          destruct (@start_go (y_m s) f fs t ES ET En) as [m' M]; [rewrite EL; exact (so_hw Hok _ Ii Eh)|]. unfold mdo. rewrite M. simpl. eauto. }
      destruct X as [X|[s' X]]; [tauto|left]. apply (CS YHandler s'); [now apply C1|]. unfold ystep. now rewrite ES, EL, Fr.
  - (* thread mode, in no lock *)
    pose proof (@bottom _ _ _ R ES EL) as ->. pose proof (@KW _ _ R ES En) as EM.
    assert (TK : forall i, In i (l_lines A) -> can_take A (y_m s) i = true).
    { intros i I. apply can_take_spec. split; [exact I|]. split; [rewrite EM; now apply K0|]. rewrite ES. intros g [<- |[]]. rewrite EL. simpl. pose proof (so_pos Hok _ I). lia. }
    assert (OFF : forall i, dp (y_x s (Some i)) = DIdle).
    { intros i. apply (R_off HR). unfold vw, view_of. rewrite ES. simpl. rewrite EL. intuition discriminate. }
    destruct (existsb (fun i => match sa_hw P i with Some _ => y_pend s i | None => irq (y_x s (Some i)) end) (l_lines A)) eqn:EI.
    + apply existsb_exists in EI as (i & I & X). assert (T : bad_poll s \/ exists s', take P s i = Some s').
      { unfold take. destruct (sa_hw P i) as [t|] eqn:Eh.
        - right. rewrite X. unfold mdo, mstep. rewrite ES, (TK i I). simpl. eauto.
        - destruct (ebug (y_x s (Some i))) eqn:Eb; [left; eauto|right]. rewrite X.
          assert (Y : exists e, xs P (Some i) (y_x s (Some i)) (if sa_unpend P then LAccept else LDispatch) = Some e) by (unfold xs, xstep; rewrite Eb, (OFF i), X; destruct (sa_unpend P); simpl; eauto).
          destruct Y as [e Y]. rewrite (xdo_some _ _ _ Y). simpl. unfold mdo, mstep. cbn [y_m]. rewrite ES, (TK i I). eauto. }
      destruct T as [T|[s' T]]; [tauto|left]. apply (CS (YTake i) s'); [reflexivity|]. unfold ystep. now rewrite ES.
    + right. right. assert (Z : forall i, In i (l_lines A) -> match sa_hw P i with Some _ => y_pend s i | None => irq (y_x s (Some i)) end = false).
      { intros i I. apply not_true_is_false. intros X. assert (Y : existsb (fun i => match sa_hw P i with Some _ => y_pend s i | None => irq (y_x s (Some i)) end) (l_lines A) = true) by (apply existsb_exists; eauto). congruence. }
      constructor.
      * exists f. auto.
      * intros i. apply not_true_is_false. intros X. destruct (N_hw HP _ X) as [I [t Eh]]. specialize (Z i I). rewrite Eh in Z. congruence.
      * intros i. split; [|apply OFF]. apply not_true_is_false. intros X. pose proof (N_irq HP (Some i) (or_introl X)) as Y. destruct (sa_polls P (Some i)) as [|t ts] eqn:Ep; [congruence|].
        assert (It : In t (sa_polls P (Some i))) by (rewrite Ep; now left). apply (so_polls Hok) in It as (_ & I & Eh). specialize (Z i I). rewrite Eh in Z. congruence.
      * intros c. destruct (y_call s c) as [k|] eqn:Cc; [|reflexivity]. exfalso. destruct (C_ctx HC _ Cc) as [(e & -> & I)|(o & t & -> & I)].
        -- assert (Y : existsb (fun c => negb (free s (ectx c))) (sa_env P) = true) by (apply existsb_exists; exists e; split; [exact I|]; unfold free; now rewrite Cc). congruence.
        -- unfold vw, view_of in I. rewrite ES in I. destruct I as [[= <- _]|[]]. congruence.
Qed.
End Progress.
