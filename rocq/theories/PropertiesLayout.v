(** C74: a task's future fits the storage reserved for it. *)
From Verif Require Import Base LayoutModel.
Set Implicit Arguments.

(** * Specification *)
(** What Rust guarantees of any type (reference, type-layout): the alignment is a power of two, and divides the size. *)
Definition is_layout (l : layout) : Prop := (exists k, al l = 2 ^ k) /\ sz l mod al l = 0.
(** A struct with three fields laid out in some way: aligned, in bounds, disjoint; [e] is the layout of [AsyncTaskExecutor<F>], executor.rs
    205-210: the future, [running], [pending]. *)
Record exec_layout (f e : layout) (o_task o_running o_pending : nat) : Prop := {
  el_fut : is_layout f; el_exec : is_layout e;
  el_align : al f <= al e;
  el_aligned : o_task mod al f = 0;
  el_in : o_task + sz f <= sz e /\ o_running + 1 <= sz e /\ o_pending + 1 <= sz e;
  el_disj : o_running <> o_pending /\ (o_running < o_task \/ o_task + sz f <= o_running) /\ (o_pending < o_task \/ o_task + sz f <= o_pending)
}.
(** [exec_new] (executor.rs 103-108, 222-230): both flags false. *)
Definition new_image (img : nat -> option nat) o_running o_pending : Prop := img o_running = Some 0 /\ img o_pending = Some 0.

(** * Proofs *)
Lemma round_up_0 n a : n mod a = 0 -> round_up n a = n.
Proof. unfold round_up. intros ->. reflexivity. Qed.
Lemma round_up_ge n a : n <= round_up n a.
Proof. unfold round_up. destruct (n mod a =? 0); lia. Qed.
Lemma pow_pos k : 2 ^ k <> 0. Proof. apply Nat.pow_nonzero. lia. Qed.
Lemma round_up_div n a : a <> 0 -> round_up n a mod a = 0.
Proof.
  intros Ha. unfold round_up. destruct (Nat.eqb_spec (n mod a) 0) as [E|E]; [exact E|]. pose proof (Nat.mod_upper_bound n a Ha). rewrite (Nat.div_mod n a Ha) at 1.
  replace (a * (n / a) + n mod a + (a - n mod a)) with ((n / a + 1) * a) by lia. now apply Nat.mod_mul.
Qed.
Lemma pow_inj k j : 2 ^ k = 2 ^ j -> k = j.
Proof. intros E. apply (Nat.pow_inj_r 2); [lia|exact E]. Qed.
Lemma alignments_eq : alignments = map (fun k => 2 ^ k) (seq 0 15). Proof. reflexivity. Qed.
Lemma alignments_spec n k : n = 2 ^ k -> existsb (Nat.eqb n) alignments = (k <=? 14).
Proof.
  intros ->. rewrite alignments_eq. destruct (Nat.leb_spec k 14) as [H|H].
  - apply existsb_exists. exists (2 ^ k). split; [|apply Nat.eqb_refl]. apply in_map, in_seq. lia.
  - apply not_true_is_false. intros X. apply existsb_exists in X as (y & I & E). apply Nat.eqb_eq in E. apply in_map_iff in I as (j & J & I). rewrite <- J in E. apply pow_inj in E. apply in_seq in I. lia.
Qed.

Lemma holder_spec e : is_layout e -> al e <= 2 ^ 14 -> holder (sz e) (al e) = Some ([0; sz e], e).
Proof.
  intros ((k & Hk) & Hd) Ha. unfold holder, align_ty. rewrite (@alignments_spec _ k Hk).
  assert (K : k <= 14). { apply Nat.nlt_ge. intros X. assert (2 ^ 14 < 2 ^ k) by (apply Nat.pow_lt_mono_r; lia). rewrite Hk in Ha. exact (Nat.lt_irrefl _ (Nat.lt_le_trans _ _ _ H Ha)). }
  apply Nat.leb_le in K. rewrite K. unfold repr_c. cbn [repr_c_from sz al].
  assert (P : 1 <= al e) by (rewrite Hk; pose proof (pow_pos k); lia). change (round_up 0 1) with 0. rewrite !Nat.add_0_l.
  rewrite !(round_up_0 (sz e) (al e) Hd), !Nat.add_0_r. replace (Nat.max (Nat.max 1 1) (al e)) with (al e) by lia. rewrite (round_up_0 _ _ Hd). destruct e. reflexivity.
Qed.

Section C74.
Context (f e : layout) (ot orun open : nat) (H : exec_layout f e ot orun open) (inputs : nat).

(** The static of a task compiles exactly if it has at most 15 inputs and its future needs no alignment above 16384 (2^14): the sizes
    compared by [transmute] and by the assertions always agree. *)
Theorem C74_compiles : (exists base a, executor_expr inputs e base = Some a) <-> inputs <= 15 /\ al e <= 2 ^ 14.
Proof.
  pose proof (el_exec H) as L. split.
  - intros (base & a & X). unfold executor_expr, executor_decl, exec_fn, holder, align_ty in X. destruct (inputs + 1 <=? 16) eqn:I; [|discriminate]. apply Nat.leb_le in I. split; [lia|].
    destruct L as ((k & Hk) & _). rewrite (@alignments_spec _ k Hk) in X. destruct (Nat.leb_spec k 14); [|discriminate].
    rewrite Hk. apply Nat.pow_le_mono_r; lia.
  - intros [I A]. exists 0, 0. unfold executor_expr, executor_decl, exec_fn, exec_from_holder. replace (inputs + 1 <=? 16) with true by (symmetry; apply Nat.leb_le; lia).
    rewrite (holder_spec L A), !Nat.eqb_refl. reflexivity.
Qed.
(** When it compiles: the static is as large and as aligned as the executor, and the executor is at its start, so that for a static at [base]
    the future is aligned and lies, like both flags, inside the static, and the flags lie outside the future. *)
Theorem C74_fits h o base : executor_decl inputs e = Some (h, o) -> base mod al h = 0 ->
  executor_expr inputs e base = Some base /\ sz h = sz e /\ al h = al e /\
  (base + ot) mod al f = 0 /\ base <= base + ot /\ base + ot + sz f <= base + sz h /\
  (forall x, x = base + orun \/ x = base + open -> base <= x < base + sz h /\ ~ (base + ot <= x < base + ot + sz f)) /\ base + orun <> base + open.
Proof.
  pose proof (el_exec H) as L. intros D B. assert (A : al e <= 2 ^ 14 /\ inputs <= 15).
  { destruct (proj1 C74_compiles) as [X Y]; [|auto]. exists 0. unfold executor_expr, exec_from_holder. rewrite D, !Nat.eqb_refl. simpl. eauto. }
  destruct A as [A I]. assert (E : executor_decl inputs e = Some (e, 0)).
  { unfold executor_decl, exec_fn. replace (inputs + 1 <=? 16) with true by (symmetry; apply Nat.leb_le; lia). now rewrite (holder_spec L A), Nat.eqb_refl. }
  assert (Q : h = e /\ o = 0) by (rewrite E in D; injection D; auto). destruct Q as [-> ->].
  split; [unfold executor_expr, exec_from_holder; now rewrite E, !Nat.eqb_refl, Nat.add_0_r|]. split; [reflexivity|]. split; [reflexivity|].
  destruct (el_in H) as (I1 & I2 & I3). destruct (el_disj H) as (D1 & D2 & D3).
  split.
  - destruct (el_fut H) as ((kf & Kf) & _). destruct L as ((ke & Ke) & _). assert (Kle : kf <= ke).
    { apply Nat.nlt_ge. intros X. pose proof (el_align H) as Y. rewrite Kf, Ke in Y. assert (2 ^ ke < 2 ^ kf) by (apply Nat.pow_lt_mono_r; lia). lia. }
    pose proof (el_aligned H) as O. rewrite Kf in *. rewrite Ke in B. apply Nat.mod_divide in B; [|apply pow_pos]. apply Nat.mod_divide in O; [|apply pow_pos].
    apply Nat.mod_divide; [apply pow_pos|]. apply Nat.divide_add_r; [|exact O]. etransitivity; [|exact B]. exists (2 ^ (ke - kf)). rewrite <- Nat.pow_add_r. f_equal. lia.
  - split; [lia|]. split; [lia|]. split; [|lia]. intros x [-> | ->]; split; lia.
Qed.
(** Both flags read as false before the first spawn. *)
Theorem C74_starts_empty h o base img : executor_decl inputs e = Some (h, o) -> base mod al h = 0 -> new_image img orun open ->
  exists a, executor_expr inputs e base = Some a /\ static_bytes img base (a + orun) = Some 0 /\ static_bytes img base (a + open) = Some 0.
Proof.
  intros D B [N1 N2]. exists base. split; [exact (proj1 (@C74_fits h o base D B))|]. unfold static_bytes. split.
  - replace (base <=? base + orun) with true by (symmetry; apply Nat.leb_le; lia). now replace (base + orun - base) with orun by lia.
  - replace (base <=? base + open) with true by (symmetry; apply Nat.leb_le; lia). now replace (base + open - base) with open by lia.
Qed.
End C74.
Print Assumptions C74_compiles.
Print Assumptions C74_fits.
Print Assumptions C74_starts_empty.

(** A future of 20 bytes aligned to 4, the flags after it: 24 bytes. *)
Example C74_case : exec_layout (mkLay 20 4) (mkLay 24 4) 0 20 21 /\ executor_decl 3 (mkLay 24 4) = Some (mkLay 24 4, 0) /\ executor_expr 3 (mkLay 24 4) 40 = Some 40 /\
  executor_decl 16 (mkLay 24 4) = None.
Proof.
  split; [|repeat split; reflexivity]. constructor; simpl; auto; try lia; try (split; [exists 2; reflexivity|reflexivity]).
Qed.
