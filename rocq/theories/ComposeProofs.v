From Verif Require Import Base LTS ExecModel ExecSpec ExecProofs ExecProgress ComposeModel.
Set Implicit Arguments.

Lemma greach_refl {S L} (step : S -> L -> option S) G s : greach step G s s.
Proof. exists []. split; [exact I|reflexivity]. Qed.

Lemma greach_snoc {S L} (step : S -> L -> option S) G s s1 s2 l :
  greach step G s s1 -> G s1 l -> step s1 l = Some s2 -> greach step G s s2.
Proof.
  intros [ls [Hg Hr]] HG Hs. exists (ls ++ [l]). split; [|eapply run_snoc; eauto].
  revert s Hg Hr. induction ls as [|a ls IH]; simpl; intros s Hg Hr.
  - injection Hr as ->. rewrite Hs. auto.
  - destruct Hg as [Ha Hg]. split; [exact Ha|]. destruct (step s a) as [s'|]; [|discriminate]. auto.
Qed.

(** What a component owes the composition. *)
Section Contract.
Context {S L F : Type} (K : component S L F).
Definition kreach (c : S) : Prop := greach (c_step K) (c_guard K) (c_init K) c.

Record contract : Prop := {
  k_init : forall j, c_owner K (c_init K) j = None;
  k_own : forall c l c' j t, kreach c -> c_guard K c l -> c_step K c l = Some c' -> c_owner K c' j = Some t ->
          c_owner K c j = Some t \/ c_start K l = Some (j, t);
  k_wake : forall c l c' j t, kreach c -> c_guard K c l -> c_step K c l = Some c' -> c_owner K c' j = Some t -> c_woken K c' j = true ->
          In t (c_wakes K c l) \/
          (c_owner K c j = Some t /\ c_woken K c j = true /\ forall w, c_start K l <> Some (j, w))
}.
End Contract.

(** ** Combinators *)
Section Beside.
Context {S1 L1 F1 S2 L2 F2 : Type} (K1 : component S1 L1 F1) (K2 : component S2 L2 F2).

Lemma beside_reach s : kreach (beside K1 K2) s -> kreach K1 (fst s) /\ kreach K2 (snd s).
Proof.
  refine (@greach_inv _ _ (c_step (beside K1 K2)) (c_guard (beside K1 K2)) (fun s => kreach K1 (fst s) /\ kreach K2 (snd s)) _ _ _ s).
  - split; apply greach_refl.
  - clear s. intros s [l|l] s' [H1 H2] HG Hs; simpl in *.
    + destruct (c_step K1 (fst s) l) eqn:E; [|discriminate]. injection Hs as <-. simpl. split; [eapply greach_snoc; eauto|assumption].
    + destruct (c_step K2 (snd s) l) eqn:E; [|discriminate]. injection Hs as <-. simpl. split; [assumption|eapply greach_snoc; eauto].
Qed.

Lemma beside_contract : contract K1 -> contract K2 -> contract (beside K1 K2).
Proof.
  intros C1 C2. constructor.
  - intros [j|j]; [apply (k_init C1)|apply (k_init C2)].
  - intros c [l|l] c' [j|j] t Hr HG Hs Ho; apply beside_reach in Hr as [R1 R2]; simpl in *.
    + destruct (c_step K1 (fst c) l) eqn:E; [|discriminate]. injection Hs as <-. simpl in *.
      destruct (k_own C1 _ _ R1 HG E Ho) as [X|X]; auto. right. rewrite X. reflexivity.
    + destruct (c_step K1 (fst c) l) eqn:E; [|discriminate]. injection Hs as <-. auto.
    + destruct (c_step K2 (snd c) l) eqn:E; [|discriminate]. injection Hs as <-. auto.
    + destruct (c_step K2 (snd c) l) eqn:E; [|discriminate]. injection Hs as <-. simpl in *.
      destruct (k_own C2 _ _ R2 HG E Ho) as [X|X]; auto. right. rewrite X. reflexivity.
  - intros c [l|l] c' [j|j] t Hr HG Hs Ho Hw; apply beside_reach in Hr as [R1 R2]; simpl in *.
    + destruct (c_step K1 (fst c) l) eqn:E; [|discriminate]. injection Hs as <-. simpl in *.
      destruct (k_wake C1 _ _ R1 HG E Ho Hw) as [X|(X1 & X2 & X3)]; auto. right. repeat split; auto.
      intros w Hw'. destruct (c_start K1 l) as [[j' w']|]; [|discriminate]. injection Hw' as -> ->. apply (X3 w). reflexivity.
    + destruct (c_step K1 (fst c) l) eqn:E; [|discriminate]. injection Hs as <-. right. repeat split; auto.
      intros w Hw'. destruct (c_start K1 l) as [[j' w']|]; discriminate.
    + destruct (c_step K2 (snd c) l) eqn:E; [|discriminate]. injection Hs as <-. right. repeat split; auto.
      intros w Hw'. destruct (c_start K2 l) as [[j' w']|]; discriminate.
    + destruct (c_step K2 (snd c) l) eqn:E; [|discriminate]. injection Hs as <-. simpl in *.
      destruct (k_wake C2 _ _ R2 HG E Ho Hw) as [X|(X1 & X2 & X3)]; auto. right. repeat split; auto.
      intros w Hw'. destruct (c_start K2 l) as [[j' w']|]; [|discriminate]. injection Hw' as -> ->. apply (X3 w). reflexivity.
Qed.
End Beside.

Section Many.
Context {S L F : Type} (K : nat -> component S L F).

Lemma many_reach s : kreach (many K) s -> forall i, kreach (K i) (s i).
Proof.
  refine (@greach_inv _ _ (c_step (many K)) (c_guard (many K)) (fun s => forall i, kreach (K i) (s i)) (c_init (many K)) _ _ s).
  - intros i. apply greach_refl.
  - clear s. intros s [k l] s' H HG Hs i. simpl in *.
    destruct (c_step (K k) (s k) l) eqn:E; [|discriminate]. injection Hs as <-. unfold upd.
    destruct (Nat.eqb_spec i k) as [-> |]; [|auto]. eapply greach_snoc; [exact (H k)|exact HG|exact E].
Qed.

Lemma many_contract : (forall i, contract (K i)) -> contract (many K).
Proof.
  intros C. constructor.
  - intros [i j]. apply (k_init (C i)).
  - intros c [k l] c' [i j] t Hr HG Hs Ho. pose proof (many_reach Hr) as R. simpl in *.
    destruct (c_step (K k) (c k) l) eqn:E; [|discriminate]. injection Hs as <-. unfold upd in Ho.
    destruct (Nat.eqb_spec i k) as [-> |]; [|auto].
    destruct (k_own (C k) _ _ (R k) HG E Ho) as [X|X]; auto. right. rewrite X. reflexivity.
  - intros c [k l] c' [i j] t Hr HG Hs Ho Hw. pose proof (many_reach Hr) as R. simpl in *.
    destruct (c_step (K k) (c k) l) eqn:E; [|discriminate]. injection Hs as <-. unfold upd in Ho, Hw.
    destruct (Nat.eqb_spec i k) as [-> |Hik].
    + destruct (k_wake (C k) _ _ (R k) HG E Ho Hw) as [X|(X1 & X2 & X3)]; auto. right. repeat split; auto.
      intros w Hw'. destruct (c_start (K k) l) as [[j' w']|]; [|discriminate]. injection Hw' as -> ->. apply (X3 w). reflexivity.
    + right. repeat split; auto. intros w Hw'. destruct (c_start (K k) l) as [[j' w']|]; [|discriminate]. injection Hw'. congruence.
Qed.
End Many.

(** ** The composition *)
Section Proofs.
Context {V S L F : Type} (zero : bool) (tasks : list nat) (K : component S L F) (C : contract K).
Implicit Types (y : @sys V S F).
Notation step := (@ystep V S L F zero tasks K).
Notation guard := (@yguard V S L F K).
Notation yreach := (@yreach V S L F zero tasks K).

Lemma y_comp y : yreach y -> kreach K (y_c y).
Proof.
  refine (@greach_inv _ _ step guard (fun y => kreach K (y_c y)) _ _ _ y).
  - apply greach_refl.
  - clear y. intros y [l|c t|l] y' H HG Hs; simpl in Hs.
    + destruct (start_ok tasks K y l); [|discriminate]. destruct (c_step K (y_c y) l) eqn:E; [|discriminate]. injection Hs as <-. simpl.
      eapply greach_snoc; eauto.
    + destruct (in_dec Nat.eq_dec t (y_todo y)); [|discriminate]. destruct (xstep zero tasks (y_e y) (LWake c t)); [|discriminate]. injection Hs as <-. exact H.
    + destruct (xstep zero tasks (y_e y) l); [|discriminate]. injection Hs as <-. exact H.
Qed.

Lemma y_exec y : yreach y -> xreach zero tasks (y_e y).
Proof.
  refine (@greach_inv _ _ step guard (fun y => xreach zero tasks (y_e y)) _ _ _ y).
  - apply reach_refl.
  - clear y. intros y [l|c t|l] y' H HG Hs; simpl in Hs.
    + destruct (start_ok tasks K y l); [|discriminate]. destruct (c_step K (y_c y) l) eqn:E; [|discriminate]. injection Hs as <-. exact H.
    + destruct (in_dec Nat.eq_dec t (y_todo y)); [|discriminate]. destruct (xstep zero tasks (y_e y) (LWake c t)) eqn:E; [|discriminate]. injection Hs as <-. eapply reach_step; eauto.
    + destruct (xstep zero tasks (y_e y) l) eqn:E; [|discriminate]. injection Hs as <-. eapply reach_step; eauto.
Qed.

Lemma mine_iff t : mine tasks t = true <-> In t tasks.
Proof. unfold mine. destruct (in_dec Nat.eq_dec t tasks); split; auto; discriminate. Qed.

Lemma take_out_other t u l : t <> u -> In t l -> In t (take_out u l).
Proof.
  intros Htu. induction l as [|x l IH]; simpl; [tauto|]. intros [-> |H].
  - destruct (Nat.eqb_spec t u); [congruence|now left].
  - destruct (Nat.eqb x u); [exact H|right; auto].
Qed.

(** What an executor step does to the dispatcher's position inside a poll, to running and to pending flags. *)
Lemma x_in e l e' t ts : xstep zero tasks (V := V) e l = Some e' -> dp e = DIn t ts -> dp e' = DIn t ts \/ exists r, l = LDisp r.
Proof.
  unfold xstep. destruct (ebug e); [discriminate|]. intros Hs Hd. destruct l as [c t' v|c t'|c| | |r]; [| | | | |eauto].
  - destruct (ctx e c); try discriminate. destruct (in_dec Nat.eq_dec t' tasks); [|discriminate]. injection Hs as <-.
    unfold do_spawn. destruct (running e t'); simpl; auto.
  - destruct (ctx e c); try discriminate. destruct (in_dec Nat.eq_dec t' tasks); [|discriminate]. injection Hs as <-. auto.
  - unfold ctx_step in Hs. destruct (ctx e c); try discriminate; injection Hs as <-; simpl; auto.
  - rewrite Hd in Hs. discriminate.
  - rewrite Hd in Hs. discriminate.
Qed.

Lemma x_in_false e e' t ts : xstep zero tasks (V := V) e (LDisp false) = Some e' -> dp e = DIn t ts -> pending e' = pending e /\ running e' = running e /\ dp e' = DAt ts.
Proof. unfold xstep, disp_step. destruct (ebug e); [discriminate|]. intros Hs Hd. rewrite Hd in Hs. injection Hs as <-. auto. Qed.

Lemma x_pending e l e' t : xstep zero tasks (V := V) e l = Some e' -> ebug e' = false -> pending e t = true ->
  pending e' t = true \/ exists ts, dp e = DChk t ts /\ dp e' = DIn t ts.
Proof.
  unfold xstep. destruct (ebug e) eqn:Eb; [discriminate|]. intros Hs Hb Hp. destruct l as [c t' v|c t'|c| | |r].
  - destruct (ctx e c); try discriminate. destruct (in_dec Nat.eq_dec t' tasks); [|discriminate]. injection Hs as <-.
    unfold do_spawn. destruct (running e t'); simpl; auto.
  - destruct (ctx e c); try discriminate. destruct (in_dec Nat.eq_dec t' tasks); [|discriminate]. injection Hs as <-. simpl. unfold upd. destruct (Nat.eqb t t'); auto.
  - unfold ctx_step in Hs. destruct (ctx e c); try discriminate; injection Hs as <-; simpl; auto. unfold upd. destruct (Nat.eqb t t0); auto.
  - destruct (dp e); try discriminate. destruct (zero || irq e)%bool; [|discriminate]. injection Hs as <-. auto.
  - destruct (dp e); try discriminate. destruct (negb zero && irq e)%bool; [|discriminate]. injection Hs as <-. auto.
  - unfold disp_step in Hs. destruct (dp e) as [|tsE|[|t' ts]|t' ts|t' ts|t' ts] eqn:Ed; try discriminate.
    + injection Hs as <-. auto.
    + injection Hs as <-. auto.
    + injection Hs as <-. auto.
    + destruct (pending e t') eqn:Ep; [destruct (slot e t') as [|id v|id] eqn:Es|]; injection Hs as <-; simpl in *; auto; try discriminate.
      unfold upd. destruct (Nat.eqb_spec t t') as [-> |]; eauto.
    + destruct r; [destruct (slot e t'); try discriminate|]; injection Hs as <-; auto.
    + destruct (slot e t'); try discriminate; injection Hs as <-; auto.
Qed.

Lemma x_running e l e' t : xstep zero tasks (V := V) e l = Some e' -> running e t = true -> (forall ts, dp e <> DFin t ts) ->
  running e' t = true /\ ((forall ts, dp e' <> DFin t ts) \/ exists ts, dp e = DIn t ts /\ l = LDisp true).
Proof.
  unfold xstep. destruct (ebug e) eqn:Eb; [discriminate|]. intros Hs Hp Hn. destruct l as [c t' v|c t'|c| | |r].
  - destruct (ctx e c); try discriminate. destruct (in_dec Nat.eq_dec t' tasks); [|discriminate]. injection Hs as <-.
    unfold do_spawn. destruct (running e t'); simpl; auto. unfold upd. destruct (Nat.eqb t t'); auto.
  - destruct (ctx e c); try discriminate. destruct (in_dec Nat.eq_dec t' tasks); [|discriminate]. injection Hs as <-. simpl. auto.
  - unfold ctx_step in Hs. destruct (ctx e c); try discriminate; injection Hs as <-; simpl; auto.
  - destruct (dp e); try discriminate. destruct (zero || irq e)%bool; [|discriminate]. injection Hs as <-. simpl. split; [auto|left; discriminate].
  - destruct (dp e); try discriminate. destruct (negb zero && irq e)%bool; [|discriminate]. injection Hs as <-. simpl. split; [auto|left; discriminate].
  - unfold disp_step in Hs. destruct (dp e) as [|tsE|[|t' ts]|t' ts|t' ts|t' ts] eqn:Ed; try discriminate.
    + injection Hs as <-. split; [auto|left; discriminate].
    + injection Hs as <-. split; [auto|left; discriminate].
    + injection Hs as <-. simpl. split; [auto|left]. destruct (running e t'); discriminate.
    + destruct (pending e t') eqn:Ep; [destruct (slot e t') as [|id v|id] eqn:Es|]; injection Hs as <-; simpl in *; (split; [auto|left; rewrite ?Ed; discriminate]).
    + destruct r; [destruct (slot e t'); try discriminate|]; injection Hs as <-; simpl; (split; [auto|]); [|left; discriminate].
      destruct (Nat.eq_dec t' t) as [-> |Hne]; [right; eauto|left; congruence].
    + destruct (slot e t'); try discriminate; injection Hs as <-; simpl. unfold upd. destruct (Nat.eqb_spec t t') as [-> |].
      * exfalso. eapply Hn. reflexivity.
      * split; [auto|left; discriminate].
Qed.

Record YInv y : Prop := {
  Y_run : forall j t, c_owner K (y_c y) j = Some t -> In t tasks -> running (y_e y) t = true /\ forall ts, dp (y_e y) <> DFin t ts;
  Y_woken : forall j t, c_owner K (y_c y) j = Some t -> In t tasks -> c_woken K (y_c y) j = true ->
    In t (y_todo y) \/ pending (y_e y) t = true \/ (y_fresh y j = true /\ exists ts, dp (y_e y) = DIn t ts)
}.

Lemma YInv_exec y l e' : xreach zero tasks (y_e y) -> YInv y -> guard y (YExec l) -> xstep zero tasks (y_e y) l = Some e' -> ebug e' = false ->
  YInv (mkY (y_c y) e' (y_todo y) (polled K y e')).
Proof.
  intros Hr [H1 H2] HG Hs Hb. constructor; simpl.
  - intros j t Ho Ht. destruct (H1 j t Ho Ht) as [Hrun Hf]. destruct (x_running _ _ Hs Hrun Hf) as [X [Y|(ts & Y & ->)]]; [auto|].
    exfalso. simpl in HG. destruct (HG t ts Y j Ho) as [Z _]. discriminate.
  - intros j t Ho Ht Hw. destruct (H2 j t Ho Ht Hw) as [X|[X|[X [ts Y]]]]; [auto| |].
    + destruct (x_pending _ _ _ Hs Hb X) as [Z|(ts & Z1 & Z2)]; [auto|]. right. right.
      unfold polled. rewrite Z1, Z2, Ho, Nat.eqb_refl. eauto.
    + right. destruct (x_in _ _ Hs Y) as [Z|[r ->]].
      * right. split; [|eauto]. unfold polled. rewrite Y. exact X.
      * exfalso. simpl in HG. destruct (HG t ts Y j Ho) as (_ & _ & Z). congruence.
Qed.

Lemma YInv_step y l y' : kreach K (y_c y) -> xreach zero tasks (y_e y) -> YInv y -> guard y l -> step y l = Some y' -> ebug (y_e y') = false -> YInv y'.
Proof.
  intros HK HX HY HG Hs Hb. destruct l as [l|c t|l]; simpl in Hs.
  - destruct HY as [H1 H2]. destruct (start_ok tasks K y l) eqn:Eo; [|discriminate]. destruct (c_step K (y_c y) l) as [c'|] eqn:E; [|discriminate]. injection Hs as <-.
    simpl in *. constructor; simpl.
    + intros j t Ho Ht. destruct (k_own C _ _ HK HG E Ho) as [X|X]; [eauto|].
      unfold start_ok in Eo. rewrite X, (proj2 (mine_iff t) Ht) in Eo. destruct (dp (y_e y)) as [| | | |t' ts|] eqn:Ed; try discriminate.
      apply Nat.eqb_eq in Eo as ->. split; [|discriminate]. apply (E_work (EInv_reach HX)). now rewrite Ed.
    + intros j t Ho Ht Hw. destruct (k_wake C _ _ HK HG E Ho Hw) as [X|(X1 & X2 & X3)].
      * left. apply in_app_iff. right. apply filter_In. split; [exact X|now apply mine_iff].
      * destruct (H2 j t X1 Ht X2) as [Y|[Y|[Y1 Y2]]]; [left; apply in_app_iff; auto|auto|right; right].
        split; [|exact Y2]. unfold not_started. destruct (c_start K l) as [[i w]|] eqn:Es; [|exact Y1].
        destruct (c_feq K j i) as [-> |]; [|exact Y1]. exfalso. eapply X3. reflexivity.
  - destruct (in_dec Nat.eq_dec t (y_todo y)) as [Hin|]; [|discriminate]. destruct (xstep zero tasks (y_e y) (LWake c t)) as [e'|] eqn:E; [|discriminate].
    injection Hs as <-. simpl in Hb.
    pose proof (@YInv_exec y (LWake c t) e' HX HY I E Hb) as [H1 H2]. simpl in *. constructor; simpl; [exact H1|].
    assert (Ep : polled K y e' = y_fresh y).
    { unfold xstep in E. destruct (ebug (y_e y)); [discriminate|]. destruct (ctx (y_e y) c); try discriminate. destruct (in_dec Nat.eq_dec t tasks); [|discriminate].
      injection E as <-. unfold polled. simpl. destruct (dp (y_e y)); reflexivity. }
    rewrite Ep in H2. assert (Hp : pending e' t = true).
    { unfold xstep in E. destruct (ebug (y_e y)); [discriminate|]. destruct (ctx (y_e y) c); try discriminate. destruct (in_dec Nat.eq_dec t tasks); [|discriminate].
      injection E as <-. simpl. apply upd_same. }
    intros j u Ho Hu Hw. destruct (Nat.eq_dec u t) as [-> |Hut]; [auto|]. destruct (H2 j u Ho Hu Hw) as [X|X]; [|auto]. left. now apply take_out_other.
  - destruct (xstep zero tasks (y_e y) l) as [e'|] eqn:E; [|discriminate]. injection Hs as <-. simpl in Hb. eapply YInv_exec; eauto.
Qed.

Lemma YInv_reach y : yreach y -> ebug (y_e y) = false -> YInv y.
Proof.
  intros Hy. enough (kreach K (y_c y) /\ xreach zero tasks (y_e y) /\ (ebug (y_e y) = false -> YInv y)) by tauto. revert y Hy.
  refine (@greach_inv _ _ step guard _ _ _ _).
  - split; [apply greach_refl|]. split; [apply reach_refl|]. intros _. constructor; simpl; intros j t Ho; rewrite (k_init C) in Ho; discriminate.
  - intros y l y' (HK & HX & HY) HG Hs.
    assert (Hb : ebug (y_e y') = false -> ebug (y_e y) = false).
    { intros Hb. destruct (ebug (y_e y)) eqn:Eb; [|reflexivity]. exfalso. destruct l as [l|c t|l]; simpl in Hs.
      - destruct (start_ok tasks K y l); [|discriminate]. destruct (c_step K (y_c y) l); [|discriminate]. injection Hs as <-. simpl in Hb. congruence.
      - destruct (in_dec Nat.eq_dec t (y_todo y)); [|discriminate]. unfold xstep in Hs. rewrite Eb in Hs. discriminate.
      - unfold xstep in Hs. rewrite Eb in Hs. discriminate. }
    split; [|split].
    + destruct l as [l|c t|l]; simpl in Hs.
      * destruct (start_ok tasks K y l); [|discriminate]. destruct (c_step K (y_c y) l) eqn:E; [|discriminate]. injection Hs as <-. simpl. eapply greach_snoc; eauto.
      * destruct (in_dec Nat.eq_dec t (y_todo y)); [|discriminate]. destruct (xstep zero tasks (y_e y) (LWake c t)); [|discriminate]. injection Hs as <-. exact HK.
      * destruct (xstep zero tasks (y_e y) l); [|discriminate]. injection Hs as <-. exact HK.
    + destruct l as [l|c t|l]; simpl in Hs.
      * destruct (start_ok tasks K y l); [|discriminate]. destruct (c_step K (y_c y) l) eqn:E; [|discriminate]. injection Hs as <-. exact HX.
      * destruct (in_dec Nat.eq_dec t (y_todo y)); [|discriminate]. destruct (xstep zero tasks (y_e y) (LWake c t)) eqn:E; [|discriminate]. injection Hs as <-. eapply reach_step; eauto.
      * destruct (xstep zero tasks (y_e y) l) eqn:E; [|discriminate]. injection Hs as <-. eapply reach_step; eauto.
    + intros Hb'. eapply YInv_step; eauto.
Qed.

(** A future whose waker has been called belongs to a living task which will be polled, or is being polled and
    has still to poll it. *)
Lemma woken_due y j t : yreach y -> ebug (y_e y) = false -> c_owner K (y_c y) j = Some t -> In t tasks -> c_woken K (y_c y) j = true ->
  running (y_e y) t = true /\
  (In t (y_todo y) \/
   (pending (y_e y) t = true /\ (zero = true \/ irq (y_e y) = true \/ In t (ahead (dp (y_e y))) \/ exists c, busy_with (y_e y) c t)) \/
   (y_fresh y j = true /\ exists ts, dp (y_e y) = DIn t ts)).
Proof.
  intros Hy Hb Ho Ht Hw. destruct (YInv_reach Hy Hb) as [H1 H2]. destruct (H1 j t Ho Ht) as [Hr _]. split; [exact Hr|].
  destruct (H2 j t Ho Ht Hw) as [X|[X|X]]; auto. right. left. split; [exact X|]. exact (E_pend (EInv_reach (y_exec Hy)) t Hr X).
Qed.

Lemma rest_none_woken y j t : yreach y -> ebug (y_e y) = false -> zero = false -> at_rest y -> c_owner K (y_c y) j = Some t -> In t tasks ->
  c_woken K (y_c y) j = false.
Proof.
  intros Hy Hb Hz (R1 & R2 & R3 & R4) Ho Ht. destruct (c_woken K (y_c y) j) eqn:Hw; [exfalso|reflexivity].
  destruct (@woken_due y j t Hy Hb Ho Ht Hw) as [_ [X|[[_ [X|[X|[X|[c X]]]]]|[_ [ts X]]]]]; try congruence.
  - rewrite R4 in X. destruct X.
  - rewrite R2 in X. destruct X.
  - unfold busy_with in X. rewrite R3 in X. destruct X.
Qed.
End Proofs.
