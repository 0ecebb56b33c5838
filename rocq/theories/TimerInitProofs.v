(** Proofs about starting timers. *)
From Verif Require Import Base LTS TicksModel MonoModel MonoProofs TimerInitModel.
Open Scope Z_scope.
Set Implicit Arguments.

Definition tinit (d : tdriver) (s : tm) : Prop :=
  0 <= r_cnt s < 2 ^ width d /\ r_ops s = start_code d /\ r_unmasked s = false /\ r_pc s = INone /\ r_panic s = false /\
  match d with
  | Stm32 _ => r_run s = true /\ r_enmod s = false
  | Imxrt => r_run s = true
  | NrfRtc => r_en s = true /\ r_enmod s = false /\ r_top s = max_of d
  | NrfTimer => r_en s = true /\ r_enmod s = false
  | SilabsTimer _ => r_enmod s = false
  | SilabsRtcc => r_enmod s = false /\ r_top s = max_of d
  end.
Definition at_reset (s : tm) : Prop :=
  r_en s = false /\ r_run s = false /\ r_cnt s = 0 /\ r_t s = 0 /\ r_set s = true /\ r_half s = 0 /\ r_full s = false /\ r_halff s = false /\ r_hp s = 0.
Definition served (d : tdriver) (s : tm) (l : tlabel) : Prop :=
  match l with
  | TTick => ticking s = true -> r_set s = true ->
      (r_ops s <> [] -> r_t s + 1 < 2 ^ (width d - 1)) /\
      (r_ops s = [] -> (r_t s + 1) mod 2 ^ (width d - 1) = 0 -> r_full s = false /\ r_halff s = false)
  | _ => True
  end.

(** What is known at a point of the start code *)
Record facts := mkF {
  k_en : option bool; k_run : option bool; k_enmod : option bool;
  k_set : bool;        (* the counter has been set, and shows [r_t] *)
  k_top : bool; k_full : bool; k_half : bool; k_half0 : bool;   (* registers *)
  k_ief : bool; k_ieh : bool;
  k_ff : bool; k_fh : bool;   (* flags known to be clear *)
  k_hp : bool; k_prio : bool; k_unm : bool
}.
Definition opt_is (o : option bool) (b : bool) : Prop := match o with Some v => b = v | None => True end.
Definition imp (b : bool) (P : Prop) : Prop := b = true -> P.
Record holds (d : tdriver) (f : facts) (s : tm) : Prop := mkH {
  o_en : opt_is (k_en f) (r_en s); o_run : opt_is (k_run f) (r_run s); o_enmod : opt_is (k_enmod f) (r_enmod s);
  o_cnt : 0 <= r_cnt s < 2 ^ width d;
  o_set : imp (k_set f) (r_set s = true /\ r_cnt s = r_t s /\ r_t s < 2 ^ (width d - 1));
  o_top : imp (k_top f) (r_top s = max_of d);
  o_full : imp (k_full f) (d = NrfTimer -> r_fullcmp s = 0);
  o_half : imp (k_half f) (r_half s = half_of d);
  o_half0 : imp (k_half0 f) (r_half s = 0);
  o_ief : imp (k_ief f) (r_full_ie s = true); o_ieh : imp (k_ieh f) (r_half_ie s = true);
  o_ff : imp (k_ff f) (r_full s = false); o_fh : imp (k_fh f) (r_halff s = false);
  o_hp : imp (k_hp f) (r_hp s = 0); o_prio : imp (k_prio f) (r_prio s = true);
  o_unm : k_unm f = r_unmasked s
}.
Definition is_some (o : option bool) (b : bool) : bool := match o with Some v => Bool.eqb v b | None => false end.
Definition k_stop (f : facts) : bool := is_some (k_en f) false || is_some (k_run f) false.
Definition after_ticks (f : facts) : facts :=
  if k_stop f then f else
  mkF (k_en f) (k_run f) (k_enmod f) (k_set f && k_top f) (k_top f) (k_full f) (k_half f) (k_half0 f) (k_ief f) (k_ieh f)
    (k_ff f && k_set f && k_top f && k_full f) (k_fh f && k_set f && k_top f && (k_half f || k_half0 f)) (k_hp f) (k_prio f) (k_unm f).
Definition is_zero (v : Z) : bool := v =? 0.
Definition after_op (d : tdriver) (o : op) (f : facts) : facts :=
  match o with
  | OReset => mkF (Some false) (k_run f) (Some false) true true true false true false false true true (k_hp f) (k_prio f) (k_unm f)
  | OEn b => mkF (Some b) (k_run f) (k_enmod f)
      (if b then (match k_en f, k_enmod f with Some false, Some true => true | _, Some false | Some true, _ => k_set f | _, _ => false end) else k_set f)
      (k_top f) (k_full f) (k_half f) (k_half0 f) (k_ief f) (k_ieh f) (k_ff f) (k_fh f) (k_hp f) (k_prio f) (k_unm f)
  | ORun b => mkF (k_en f) (Some b) (k_enmod f) (k_set f) (k_top f) (k_full f) (k_half f) (k_half0 f) (k_ief f) (k_ieh f) (k_ff f) (k_fh f) (k_hp f) (k_prio f) (k_unm f)
  | OEnmod b => mkF (k_en f) (k_run f) (Some b) (k_set f) (k_top f) (k_full f) (k_half f) (k_half0 f) (k_ief f) (k_ieh f) (k_ff f) (k_fh f) (k_hp f) (k_prio f) (k_unm f)
  | OCnt v => mkF (k_en f) (k_run f) (k_enmod f) true (k_top f) (k_full f) (k_half f) (k_half0 f) (k_ief f) (k_ieh f) (k_ff f) (k_fh f) (k_hp f) (k_prio f) (k_unm f)
  | OTop v => mkF (k_en f) (k_run f) (k_enmod f) (k_set f) (v =? max_of d) (k_full f) (k_half f) (k_half0 f) (k_ief f) (k_ieh f) (k_ff f) (k_fh f) (k_hp f) (k_prio f) (k_unm f)
  | OFullCmp v => mkF (k_en f) (k_run f) (k_enmod f) (k_set f) (k_top f) (is_zero v) (k_half f) (k_half0 f) (k_ief f) (k_ieh f) (k_ff f) (k_fh f) (k_hp f) (k_prio f) (k_unm f)
  | OHalf v => mkF (k_en f) (k_run f) (k_enmod f) (k_set f) (k_top f) (k_full f) (v =? half_of d) (is_zero v) (k_ief f) (k_ieh f) (k_ff f) (k_fh f) (k_hp f) (k_prio f) (k_unm f)
  | OIeFull b => mkF (k_en f) (k_run f) (k_enmod f) (k_set f) (k_top f) (k_full f) (k_half f) (k_half0 f) b (k_ieh f) (k_ff f) (k_fh f) (k_hp f) (k_prio f) (k_unm f)
  | OIeHalf b => mkF (k_en f) (k_run f) (k_enmod f) (k_set f) (k_top f) (k_full f) (k_half f) (k_half0 f) (k_ief f) b (k_ff f) (k_fh f) (k_hp f) (k_prio f) (k_unm f)
  | OUpdate => mkF (k_en f) (k_run f) (k_enmod f) true (k_top f) (k_full f) (k_half f) (k_half0 f) (k_ief f) (k_ieh f) false (k_fh f) (k_hp f) (k_prio f) (k_unm f)
  | OClrFull => mkF (k_en f) (k_run f) (k_enmod f) (k_set f) (k_top f) (k_full f) (k_half f) (k_half0 f) (k_ief f) (k_ieh f) true (k_fh f) (k_hp f) (k_prio f) (k_unm f)
  | OClrHalf => mkF (k_en f) (k_run f) (k_enmod f) (k_set f) (k_top f) (k_full f) (k_half f) (k_half0 f) (k_ief f) (k_ieh f) (k_ff f) true (k_hp f) (k_prio f) (k_unm f)
  | OHp => mkF (k_en f) (k_run f) (k_enmod f) (k_set f) (k_top f) (k_full f) (k_half f) (k_half0 f) (k_ief f) (k_ieh f) (k_ff f) (k_fh f) true (k_prio f) (k_unm f)
  | OPrio => mkF (k_en f) (k_run f) (k_enmod f) (k_set f) (k_top f) (k_full f) (k_half f) (k_half0 f) (k_ief f) (k_ieh f) (k_ff f) (k_fh f) (k_hp f) true (k_unm f)
  | OUnmask => mkF (k_en f) (k_run f) (k_enmod f) (k_set f) (k_top f) (k_full f) (k_half f) (k_half0 f) (k_ief f) (k_ieh f) (k_ff f) (k_fh f) (k_hp f) (k_prio f) true
  end.
Definition op_ok (d : tdriver) (o : op) : Prop := match o with OCnt v => 0 <= v < 2 ^ (width d - 1) | _ => True end.
Fixpoint analyse (d : tdriver) (l : list op) (f : facts) : facts :=
  match l with [] => f | o :: l => analyse d l (after_ticks (after_op d o f)) end.

Lemma width_pos d : 2 <= width d. Proof. destruct d as [[]| | | |[]|]; simpl; lia. Qed.
Lemma pow_split d : 2 ^ width d = 2 * 2 ^ (width d - 1).
Proof. pose proof (width_pos d). rewrite <- (Z.pow_succ_r 2 (width d - 1)) by lia. f_equal. lia. Qed.
Lemma half_pos d : 2 <= 2 ^ (width d - 1).
Proof. pose proof (width_pos d). change 2 with (2 ^ 1) at 1. apply Z.pow_le_mono_r; lia. Qed.

Ltac fields H := destruct H as [Hen Hrun Henm Hcnt Hset Htop Hfull Hhalf Hhalf0 Hief Hieh Hff Hfh Hhp Hprio Hunm].
Lemma op_sound d o f s : op_ok d o -> holds d f s -> holds d (after_op d o f) (do_op d o s).
Proof.
  intros Ok H. fields H. pose proof (half_pos d) as P. assert (Q : 2 ^ (width d - 1) < 2 ^ width d) by (pose proof (pow_split d); lia).
  destruct o; simpl in *.
  2:{ destruct (b && negb (r_en s) && r_enmod s) eqn:C.
    + apply andb_true_iff in C as [C C3]. apply andb_true_iff in C as [-> C2]. apply negb_true_iff in C2.
      constructor; simpl; unfold imp in *; auto; try lia; intros _; repeat split; lia.
    + constructor; simpl; unfold imp in *; auto. intros K. apply Hset. destruct b; [|exact K].
      destruct (k_en f) as [[]|], (k_enmod f) as [[]|]; simpl in *; auto; try discriminate. rewrite Hen, Henm in C. discriminate. }
  all: constructor; simpl; unfold imp, is_zero in *; intros; auto; try discriminate; try lia.
  all: match goal with K : (_ =? _) = true |- _ => apply Z.eqb_eq in K; auto | |- _ /\ _ => repeat split; auto; lia | _ => idtac end.
Qed.
Lemma tick_sound d f s : (ticking s = true -> r_set s = true -> r_t s + 1 < 2 ^ (width d - 1)) -> holds d f s -> holds d (after_ticks f) (tick d s).
Proof.
  intros G H. fields H. pose proof (half_pos d) as P. pose proof (pow_split d) as Q. unfold after_ticks, tick, k_stop in *.
  destruct (ticking s) eqn:T.
  - assert (S0 : (is_some (k_en f) false || is_some (k_run f) false) = false).
    { unfold ticking in T. apply andb_true_iff in T as [T1 T2]. rewrite T1 in Hen. rewrite T2 in Hrun. destruct (k_en f) as [[]|], (k_run f) as [[]|]; simpl in *; auto; discriminate. }
    rewrite S0.
    assert (N : k_set f = true -> k_top f = true -> (r_cnt s =? r_top s) = false /\ (if r_cnt s =? r_top s then 0 else (r_cnt s + 1) mod 2 ^ width d) = r_cnt s + 1 /\ r_cnt s + 1 < 2 ^ (width d - 1)).
    { intros K1 K2. destruct (Hset K1) as (S1 & S2 & S3). specialize (G eq_refl S1). rewrite (Htop K2). unfold max_of. destruct (Z.eqb_spec (r_cnt s) (2 ^ width d - 1)); [lia|]. repeat split; [|lia]. apply Z.mod_small. lia. }
    constructor; simpl; unfold imp in *; auto.
    + destruct (r_cnt s =? r_top s); [lia|apply Z.mod_pos_bound; lia].
    + intros K. apply andb_true_iff in K as [K K']. destruct (N K K') as (N1 & N2 & N3). destruct (Hset K) as (S1 & S2 & S3). specialize (G eq_refl S1). rewrite N2. repeat split; auto; lia.
    + intros K. rewrite !andb_true_iff in K. destruct K as (((K1 & K2) & K3) & K4). destruct (N K2 K3) as (N1 & N2 & N3). rewrite N1 in *. rewrite (Hff K1). simpl.
      destruct d; auto. rewrite N2, (Hfull K4 eq_refl). apply Z.eqb_neq. lia.
    + intros K. rewrite !andb_true_iff in K. destruct K as (((K1 & K2) & K3) & K4). destruct (N K2 K3) as (N1 & N2 & N3). rewrite N2, (Hfh K1). simpl. apply Z.eqb_neq. apply orb_true_iff in K4 as [K4|K4]; [rewrite (Hhalf K4); unfold half_of|rewrite (Hhalf0 K4)]; lia.
  - destruct (is_some (k_en f) false || is_some (k_run f) false); constructor; simpl; unfold imp in *; auto.
    + intros K. apply andb_true_iff in K as [K _]. auto.
    + intros K. rewrite !andb_true_iff in K. apply Hff. tauto.
    + intros K. rewrite !andb_true_iff in K. apply Hfh. tauto.
Qed.

Lemma after_ticks_idem f : after_ticks (after_ticks f) = after_ticks f.
Proof.
  unfold after_ticks. destruct (k_stop f) eqn:E; [now rewrite E|]. unfold k_stop in *. cbn [k_en k_run] in *. rewrite E. cbn [k_enmod k_set k_top k_full k_half k_half0 k_ief k_ieh k_ff k_fh k_hp k_prio k_unm].
  f_equal; destruct (k_set f), (k_top f), (k_full f), (k_ff f), (k_fh f), (k_half f), (k_half0 f); reflexivity.
Qed.
Definition ready (f : facts) : bool :=
  is_some (k_en f) true && is_some (k_run f) true && k_set f && k_top f && k_full f && k_half f && k_ief f && k_ieh f && k_ff f && k_fh f && k_hp f && k_prio f && k_unm f.
Fixpoint unm_last (l : list op) : bool := match l with [] => true | OUnmask :: l => match l with [] => true | _ => false end | _ :: l => unm_last l end.

Section Drv.
Context (d : tdriver).
Notation h := (2 ^ (width d - 1)).
Record running (s : tm) : Prop := mkRun {
  u_ops : r_ops s = [];
  u_en : r_en s = true; u_run : r_run s = true; u_set : r_set s = true;
  u_top : r_top s = max_of d; u_full : d = NrfTimer -> r_fullcmp s = 0; u_half : r_half s = half_of d;
  u_ief : r_full_ie s = true; u_ieh : r_half_ie s = true; u_prio : r_prio s = true; u_unm : r_unmasked s = true;
  u_cnt : r_cnt s = r_t s mod 2 ^ width d;
  u_inv : HInv (width d) (isr_of d) (isr_view s)
}.
Definition starting (s : tm) : Prop := exists f, after_ticks f = f /\ holds d f s /\ ready (analyse d (r_ops s) f) = true /\ Forall (op_ok d) (r_ops s) /\
  r_ops s <> [] /\ unm_last (r_ops s) = true /\ k_unm f = false /\ r_pc s = INone /\ r_panic s = false.

Lemma start_running s f : holds d f s -> ready f = true -> r_ops s = [] -> r_pc s = INone -> r_panic s = false -> running s.
Proof.
  intros H R O Pc Pn. fields H. unfold ready in R. rewrite !andb_true_iff in R. destruct R as ((((((((((((R1 & R2) & R3) & R4) & R5) & R6) & R7) & R8) & R9) & R10) & R11) & R12) & R13).
  assert (D : forall o b v, is_some o b = true -> opt_is o v -> v = b) by (intros [w|] b v; simpl; [intros E ->; now apply eqb_prop in E|discriminate]).
  unfold imp in *. destruct (Hset R3) as (S1 & S2 & S3). pose proof (half_pos d) as P. pose proof (pow_split d) as Q.
  pose proof (D _ _ _ R1 Hen) as A1. pose proof (D _ _ _ R2 Hrun) as A2. rewrite Hunm in R13.
  constructor; auto. { rewrite S2 at 1. symmetry. apply Z.mod_small. lia. }
  assert (E : isr_view s = mkHps (r_t s) 0 false false INone (r_l s) false) by (unfold isr_view; now rewrite Hhp, Hff, Hfh, Pc, Pn).
  rewrite E. constructor; cbn [h_t h_hp h_full h_half h_pc h_l h_panic]; auto; try discriminate; try lia. rewrite Z.div_small; lia.
Qed.

Lemma running_step s l s' : running s -> served d s l -> tstep d s l = Some s' -> running s'.
Proof.
  intros R G E. destruct R. pose proof (half_pos d) as P. pose proof (pow_split d) as Q. pose proof (width_pos d) as W. destruct l; cbn [tstep served] in *.
  - injection E as <-. assert (T : ticking s = true) by (unfold ticking; now rewrite u_en0, u_run0). specialize (G T u_set0). destruct G as [_ G]. specialize (G u_ops0).
    assert (Ht : 0 <= r_t s) by exact (HI_t u_inv0).
    assert (C : (if r_cnt s =? r_top s then 0 else (r_cnt s + 1) mod 2 ^ width d) = (r_t s + 1) mod 2 ^ width d).
    { rewrite u_top0, u_cnt0. unfold max_of. rewrite <- (Z.add_mod_idemp_l (r_t s) 1) by lia. destruct (Z.eqb_spec (r_t s mod 2 ^ width d) (2 ^ width d - 1)) as [->|]; [|reflexivity]. replace (2 ^ width d - 1 + 1) with (2 ^ width d) by lia. now rewrite Z.mod_same by lia. }
    assert (C0 : (r_cnt s =? r_top s) = ((r_t s + 1) mod 2 ^ width d =? 0)).
    { rewrite <- C. destruct (Z.eqb_spec (r_cnt s) (r_top s)) as [|N]; [reflexivity|]. symmetry. apply Z.eqb_neq.
      assert (B : 0 <= r_cnt s < 2 ^ width d) by (rewrite u_cnt0; apply Z.mod_pos_bound; lia). rewrite u_top0 in N. unfold max_of in N. rewrite Z.mod_small; lia. }
    assert (V : hps_step (width d) (isr_of d) (isr_view s) HTick = Some (isr_view (tick d s))).
    { unfold tick. rewrite T. unfold isr_view. cbn [hps_step h_t h_hp h_full h_half h_pc h_l h_panic r_t r_hp r_full r_halff r_pc r_l r_panic]. rewrite C, C0, u_half0. unfold half_of. destruct d; try reflexivity. now rewrite u_full0. }
    assert (I' : HInv (width d) (isr_of d) (isr_view (tick d s))).
    { eapply HInv_step; [| exact u_inv0 | | exact V]; [lia|]. exact G. }
    clear V. unfold tick in *. rewrite T in *. constructor; cbn; auto.
  - rewrite u_ops0 in E. discriminate.
  - rewrite u_unm0 in E. destruct (hps_step _ _ _ HEnter) as [v|] eqn:V; [|discriminate]. injection E as <-.
    assert (K : HInv (width d) (isr_of d) v) by (eapply HInv_step; [|exact u_inv0| |exact V]; [lia|exact I]).
    assert (Kt : h_t v = r_t s). { cbn [hps_step] in V. destruct (h_pc (isr_view s)); try discriminate. now injection V as <-. }
    constructor; cbn; auto. destruct v; cbn in *. subst. exact K.
  - destruct (hps_step _ _ _ HStep) as [v|] eqn:V; [|discriminate]. injection E as <-.
    assert (K : HInv (width d) (isr_of d) v) by (eapply HInv_step; [|exact u_inv0| |exact V]; [lia|exact I]).
    assert (Kt : h_t v = r_t s). { cbn [hps_step] in V. destruct (h_pc (isr_view s)); try discriminate; now injection V as <-. }
    constructor; cbn; auto. destruct v; cbn in *. subst. exact K.
Qed.
Lemma do_op_rest o s : r_ops (do_op d o s) = r_ops s /\ r_pc (do_op d o s) = r_pc s /\ r_panic (do_op d o s) = r_panic s.
Proof. destruct o; cbn; auto. destruct (b && negb (r_en s) && r_enmod s); cbn; auto. Qed.
Lemma set_ops_holds f s l : holds d f s -> holds d f (set_ops s l).
Proof. intros H. fields H. constructor; auto. Qed.
Lemma tick_rest s : r_ops (tick d s) = r_ops s /\ r_pc (tick d s) = r_pc s /\ r_panic (tick d s) = r_panic s.
Proof. unfold tick. destruct (ticking s); auto. Qed.
Lemma unm_after o f : k_unm f = false -> o <> OUnmask -> k_unm (after_ticks (after_op d o f)) = false.
Proof. intros K N. unfold after_ticks. assert (E : k_unm (after_op d o f) = false) by (destruct o; cbn; auto; congruence). destruct (k_stop _); cbn; exact E. Qed.
Lemma after_of_holds f s : holds d f s -> holds d (after_ticks f) s.
Proof.
  intros H. fields H. unfold after_ticks. destruct (k_stop f); constructor; cbn; auto; unfold imp in *; intros K; rewrite ?andb_true_iff in K; try tauto; apply Hset; tauto.
Qed.
Lemma starting_step s l s' : starting s -> served d s l -> tstep d s l = Some s' -> starting s' \/ running s'.
Proof.
  intros (f & Hf & H & R & Ok & O & U & K & Pc & Pn) G E. destruct l; cbn [tstep served] in *.
  - injection E as <-. left. exists f. destruct (tick_rest s) as (E1 & E2 & E3). rewrite E1, E2, E3. split; [exact Hf|]. split; [|auto 10].
    rewrite <- Hf. apply tick_sound; [|exact H]. intros T S. exact (proj1 (G T S) O).
  - destruct (r_ops s) as [|o os] eqn:Eo; [congruence|]. injection E as <-. inversion Ok as [|? ? Ok1 Ok2]; subst.
    destruct (do_op_rest o (set_ops s os)) as (E1 & E2 & E3). cbn [set_ops r_ops r_pc r_panic] in E1, E2, E3.
    assert (H1 : holds d (after_ticks (after_op d o f)) (do_op d o (set_ops s os))) by (apply after_of_holds, op_sound; [exact Ok1|now apply set_ops_holds]).
    cbn [analyse] in R. destruct os as [|o' os].
    + right. eapply start_running; [exact H1|exact R|exact E1| |]; congruence.
    + left. exists (after_ticks (after_op d o f)). rewrite E1, E2, E3. split; [apply after_ticks_idem|]. split; [exact H1|]. split; [exact R|]. split; [exact Ok2|]. split; [discriminate|].
      assert (N : o <> OUnmask) by (intros ->; discriminate). split; [|split; [now apply unm_after|auto]].
      destruct o; try exact U. congruence.
  - rewrite <- (o_unm H), K in E. discriminate.
  - cbn [hps_step isr_view h_pc] in E. rewrite Pc in E. discriminate.
Qed.

Definition init_facts : facts :=
  match d with
  | Stm32 _ => mkF None (Some true) (Some false) false false true false false false false false false false false false
  | Imxrt => mkF None (Some true) None false false true false false false false false false false false false
  | NrfRtc => mkF (Some true) None (Some false) false true true false false false false false false false false false
  | NrfTimer => mkF (Some true) None (Some false) false false false false false false false false false false false false
  | SilabsTimer _ => mkF None None (Some false) false false true false false false false false false false false false
  | SilabsRtcc => mkF (Some false) (Some false) (Some false) true true true false true false false true true true false false
  end.
End Drv.
Lemma analysed d : ready (analyse d (start_code d) (after_ticks (init_facts d))) = true.
Proof. destruct d as [[]| | | |[]|]; vm_compute; reflexivity. Qed.
Lemma start_shape d : Forall (op_ok d) (start_code d) /\ start_code d <> [] /\ unm_last (start_code d) = true /\ k_unm (after_ticks (init_facts d)) = false.
Proof.
  pose proof (half_pos d) as Hh. assert (J : forall v, v = 0 \/ v = 1 -> op_ok d (OCnt v)) by (unfold op_ok; lia). split; [|split; [|split]].
  - destruct d as [w| | | |w|]; unfold start_code; repeat (apply Forall_cons; [first [exact I|apply J; auto]|]); apply Forall_nil.
  - destruct d as [w| | | |w|]; discriminate.
  - destruct d as [w| | | |w|]; reflexivity.
  - destruct d as [w| | | |w|]; reflexivity.
Qed.
Lemma first_facts d s : tinit d s -> (d = SilabsRtcc -> at_reset s) -> holds d (init_facts d) s.
Proof.
  intros (Hc & Ho & Hu & Hp & Hn & Hd) Hr. pose proof (half_pos d) as Hh. destruct d as [w| | | |w|]; constructor; cbn [init_facts k_en k_run k_enmod k_set k_top k_full k_half k_half0 k_ief k_ieh k_ff k_fh k_hp k_prio k_unm opt_is]; unfold imp; intros; try discriminate; auto; try tauto.
  all: destruct (Hr eq_refl) as (A & B & C & D & F & G & I & J & L); auto. repeat split; auto; lia.
Qed.
Lemma init_holds d s : tinit d s -> (d = SilabsRtcc -> at_reset s) -> starting d s.
Proof.
  intros I A. exists (after_ticks (init_facts d)). destruct (start_shape d) as (S1 & S2 & S3 & S4). assert (F := first_facts I A). destruct I as (Hc & Ho & Hu & Hp & Hn & _). rewrite Ho.
  split; [apply after_ticks_idem|]. split; [now apply after_of_holds|]. split; [apply analysed|]. auto 10.
Qed.
Lemma treach_inv d s0 s : tinit d s0 -> (d = SilabsRtcc -> at_reset s0) -> greach (tstep d) (served d) s0 s -> starting d s \/ running d s.
Proof.
  intros I A. apply (@greach_inv _ _ (tstep d) (served d) (fun s => starting d s \/ running d s)).
  - left. now apply init_holds.
  - intros s1 l s2 [S|R] G E; [eapply starting_step; eauto|right; eapply running_step; eauto].
Qed.
