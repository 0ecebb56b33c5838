From Coq Require Import NArith.
From Verif Require Import Base LTS LockModel LockSpec LockProofs LockBackends.
Set Implicit Arguments.

Lemma setw_length l k w : length (setw l k w) = length l.
Proof.
  unfold setw. rewrite app_length. pose proof (firstn_skipn k l) as E. apply (f_equal (@length N)) in E. rewrite app_length in E.
  destruct (skipn k l) as [|x t]; simpl in *; lia.
Qed.
Lemma getw_setw l k w j : getw (setw l k w) j = if (j =? k) && (k <? length l) then w else getw l j.
Proof.
  unfold getw, setw. revert l j. induction k as [|k IH]; intros [|x l] j; simpl.
  - destruct j; reflexivity.
  - destruct j; reflexivity.
  - destruct (j =? S k); destruct j; reflexivity.
  - destruct j as [|j]; [reflexivity|]. simpl. rewrite IH. reflexivity.
Qed.

(** Bit [n] of a multi-word mask. *)
Definition mbit (mask : list N) (n : nat) : bool := N.testbit (getw mask (n / 32)) (N.of_nat (n mod 32)).

Lemma mbit_out mask n : length mask <= n / 32 -> mbit mask n = false.
Proof. intros H. unfold mbit, getw. rewrite nth_overflow by exact H. apply N.bits_0. Qed.

Lemma div_mod_inj n b : n / 32 = b / 32 -> n mod 32 = b mod 32 -> n = b.
Proof. intros H1 H2. rewrite (Nat.div_mod n 32), (Nat.div_mod b 32) by lia. congruence. Qed.

Lemma set_bit_spec mask b mask' : set_bit mask b = Some mask' -> length mask' = length mask /\ forall n, mbit mask' n = (mbit mask n || (n =? b))%bool.
Proof.
  unfold set_bit. destruct (Nat.leb_spec (length mask) (b / 32)) as [H|H]; [discriminate|].
  intros E0. assert (E1 : forall x y : list N, Some x = Some y -> y = x) by (intros; congruence). apply E1 in E0. subst mask'. clear E1.
  split; [apply setw_length|]. intros n. unfold mbit. rewrite getw_setw. destruct (Nat.ltb_spec (b / 32) (length mask)); [|lia]. rewrite andb_true_r.
  assert (Eo : b - b / 32 * 32 = b mod 32) by (pose proof (Nat.div_mod b 32 ltac:(lia)); lia). rewrite Eo.
  destruct (Nat.eqb_spec (n / 32) (b / 32)) as [E|E].
  - rewrite E, N.lor_spec. f_equal. rewrite N.shiftl_1_l, N.pow2_bits_eqb.
    destruct (Nat.eqb_spec n b) as [->|N0]; [now rewrite N.eqb_refl|]. apply N.eqb_neq. intros X. apply Nat2N.inj in X. apply N0. apply div_mod_inj; congruence.
  - destruct (Nat.eqb_spec n b) as [->|N0]; [congruence|]. now rewrite orb_false_r.
Qed.

Lemma set_bit_total mask b : b / 32 < length mask -> exists mask', set_bit mask b = Some mask'.
Proof. intros H. unfold set_bit. destruct (Nat.leb_spec (length mask) (b / 32)); [lia|eauto]. Qed.

Lemma create_mask_from_spec ids : forall mask mask', create_mask_from mask ids = Some mask' ->
  length mask' = length mask /\ forall n, mbit mask' n = (mbit mask n || existsb (Nat.eqb n) ids)%bool.
Proof.
  induction ids as [|b ids IH]; simpl; intros mask mask' H.
  - injection H as <-. split; [reflexivity|]. intros n. now rewrite orb_false_r.
  - destruct (set_bit mask b) as [m1|] eqn:E; [|discriminate]. apply set_bit_spec in E as [L1 B1]. apply IH in H as [L2 B2].
    split; [congruence|]. intros n. rewrite B2, B1, orb_assoc. reflexivity.
Qed.
Lemma create_mask_from_total ids : forall mask, (forall b, In b ids -> b / 32 < length mask) -> exists mask', create_mask_from mask ids = Some mask'.
Proof.
  induction ids as [|b ids IH]; simpl; intros mask H; [eauto|].
  destruct (@set_bit_total mask b) as [m1 E]; [apply H; now left|]. rewrite E. apply IH. intros b' Hb. apply set_bit_spec in E as [-> _]. apply H. now right.
Qed.

Lemma mbit_zero k n : mbit (repeat 0%N k) n = false.
Proof. unfold mbit, getw. rewrite nth_repeat. apply N.bits_0. Qed.

Lemma fold_max_ge l : forall a, a <= fold_left (fun mx id => if mx <? id then id else mx) l a /\ forall x, In x l -> x <= fold_left (fun mx id => if mx <? id then id else mx) l a.
Proof.
  induction l as [|y l IH]; simpl; intros a; [split; [lia|intros x []]|].
  destruct (IH (if a <? y then y else a)) as [H1 H2]. destruct (Nat.ltb_spec a y); split; try lia; intros x [->|Hx]; auto; lia.
Qed.

(** Enough chunks: no listed interrupt number overflows the mask. *)
Lemma chunks_enough ids b : In b ids -> b / 32 < compute_mask_chunks ids.
Proof.
  intros H. unfold compute_mask_chunks. apply (proj2 (fold_max_ge ids 0)) in H.
  replace (fold_left (fun mx id => if mx <? id then id else mx) ids 0 + 32) with (fold_left (fun mx id => if mx <? id then id else mx) ids 0 + 1 * 32) by lia.
  rewrite Nat.div_add by lia. assert (b / 32 <= fold_left (fun mx id => if mx <? id then id else mx) ids 0 / 32) by (apply Nat.div_le_mono; lia). lia.
Qed.

Lemma getw_map_seq (g : nat -> N) len k : k < len -> getw (map g (seq 0 len)) k = g k.
Proof. intros H. unfold getw. rewrite (nth_indep _ 0%N (g 0)) by (rewrite map_length, seq_length; exact H). rewrite (map_nth g), seq_nth by exact H. reflexivity. Qed.
Lemma getw_map_seq_out (g : nat -> N) len k : len <= k -> getw (map g (seq 0 len)) k = 0%N.
Proof. intros H. unfold getw. apply nth_overflow. now rewrite map_length, seq_length. Qed.

Lemma orw_length a b : length (orw a b) = length a.
Proof. unfold orw. now rewrite map_length, seq_length. Qed.
Lemma orw_bit a b n : length a = length b -> mbit (orw a b) n = (mbit a n || mbit b n)%bool.
Proof.
  intros H. unfold mbit, orw. destruct (Nat.lt_ge_cases (n / 32) (length a)) as [L|L].
  - rewrite getw_map_seq by exact L. apply N.lor_spec.
  - rewrite getw_map_seq_out by exact L. unfold getw. rewrite !nth_overflow by lia. now rewrite N.bits_0.
Qed.

Section Source.
Context (lines : list nat) (prio irqn : nat -> nat) (exc : nat -> bool).
Notation chunks := (chunks lines irqn exc).
Notation masks := (masks lines prio irqn exc).
Notation mask_at := (mask_at lines prio irqn exc).

Lemma mask_at_spec p : length (mask_at p) = chunks /\ create_mask chunks (ids_at lines prio irqn exc p) = Some (mask_at p) /\
  forall n, mbit (mask_at p) n = existsb (Nat.eqb n) (ids_at lines prio irqn exc p).
Proof.
  unfold LockBackends.mask_at. destruct (@create_mask_from_total (ids_at lines prio irqn exc p) (repeat 0%N chunks)) as [m E].
  - intros b Hb. rewrite repeat_length. apply chunks_enough. unfold ids_at, all_ids in *. apply in_map_iff in Hb as (i & <- & Hi). apply in_map.
    apply filter_In in Hi as [H1 H2]. apply filter_In. split; [exact H1|]. now apply andb_prop in H2.
  - unfold create_mask. rewrite E. apply create_mask_from_spec in E as [L Bt]. rewrite repeat_length in L. repeat split; auto.
    intros n. rewrite Bt, mbit_zero. reflexivity.
Qed.

Lemma ids_at_in p n : existsb (Nat.eqb n) (ids_at lines prio irqn exc p) = true <-> exists i, In i lines /\ exc i = false /\ prio i = p /\ irqn i = n.
Proof.
  rewrite existsb_exists. unfold ids_at. split.
  - intros (x & Hx & E). apply Nat.eqb_eq in E. subst x. apply in_map_iff in Hx as (i & <- & Hi). apply filter_In in Hi as [H1 H2]. apply andb_prop in H2 as [H2 H3].
    exists i. repeat split; auto; [now apply negb_true_iff|now apply Nat.eqb_eq].
  - intros (i & H1 & H2 & H3 & <-). exists (irqn i). split; [|apply Nat.eqb_refl]. apply in_map. apply filter_In. split; [exact H1|]. rewrite H2. simpl. now apply Nat.eqb_eq.
Qed.

(** Bit [n] is in the mask of ceiling [c] exactly for the interrupts of priority 1..c. *)
Lemma compute_mask_spec c : c <= 3 -> length (compute_mask chunks masks c) = chunks /\
  forall n, mbit (compute_mask chunks masks c) n = true <-> exists i, In i lines /\ exc i = false /\ 1 <= prio i <= c /\ irqn i = n.
Proof.
  intros Hc. unfold compute_mask.
  assert (H : forall k, k <= 3 -> length (fold_left (fun res idx => orw res (nth idx masks [])) (seq 0 k) (repeat 0%N chunks)) = chunks /\
     forall n, mbit (fold_left (fun res idx => orw res (nth idx masks [])) (seq 0 k) (repeat 0%N chunks)) n = true <-> exists i, In i lines /\ exc i = false /\ 1 <= prio i <= k /\ irqn i = n).
  { induction k as [|k IH]; intros Hk.
    - simpl. rewrite repeat_length. split; [reflexivity|]. intros n. rewrite mbit_zero. split; [discriminate|]. intros (i & _ & _ & X & _). lia.
    - destruct IH as [L Bt]; [lia|]. rewrite seq_S, fold_left_app. cbn [fold_left Nat.add]. rewrite orw_length. split; [exact L|]. intros n.
      assert (En : nth k masks [] = mask_at (S k)) by (destruct k as [|[|[|k]]]; [reflexivity|reflexivity|reflexivity|lia]). rewrite En.
      destruct (mask_at_spec (S k)) as (L2 & _ & B2). rewrite orw_bit by congruence. rewrite orb_true_iff, Bt, B2, ids_at_in. split.
      + intros [(i & H1 & H2 & H3 & H4)|(i & H1 & H2 & H3 & H4)]; exists i; repeat split; auto; lia.
      + intros (i & H1 & H2 & H3 & H4). destruct (Nat.eq_dec (prio i) (S k)); [right|left]; exists i; repeat split; auto; lia. }
  exact (H c Hc).
Qed.

End Source.

(** *** Register writes *)
Definition wordwise (old new : nreg) (ks : list nat) (g : nat -> N -> N) : Prop :=
  nprimask new = nprimask old /\ length (iser new) = length (iser old) /\
  forall k, getw (iser new) k = if existsb (Nat.eqb k) ks then g k (getw (iser old) k) else getw (iser old) k.

Lemma clr_words mask ks : forall m, (forall k, In k ks -> k < length (iser m)) ->
  wordwise m (applyl (map (clr_word mask) ks) m) ks (fun k w => N.ldiff w (getw mask k)).
Proof.
  induction ks as [|k ks IH] using rev_ind; intros m Hk.
  - repeat split.
  - rewrite map_app. simpl. rewrite applyl_snoc. destruct (IH m) as (P & L & G); [intros; apply Hk; apply in_app_iff; now left|].
    remember (applyl (map (clr_word mask) ks) m) as m1 eqn:Em1. clear Em1 IH.
    unfold wordwise, clr_word. simpl. rewrite setw_length. repeat split; auto. intros j. rewrite getw_setw, L, existsb_app. simpl. rewrite orb_false_r.
    destruct (Nat.ltb_spec k (length (iser m))); [|exfalso; specialize (Hk k); rewrite in_app_iff in Hk; simpl in Hk; intuition lia].
    rewrite andb_true_r, G. destruct (Nat.eqb_spec j k) as [->|N0]; [|now rewrite orb_false_r, G]. rewrite orb_true_r. destruct (existsb (Nat.eqb k) ks); auto.
    now rewrite N.ldiff_ldiff_l, N.lor_diag.
Qed.

Lemma set_words old ks : forall m, (forall k, In k ks -> k < length (iser m)) ->
  wordwise m (applyl (map (set_word old) ks) m) ks (fun k w => N.lor w (getw old k)).
Proof.
  induction ks as [|k ks IH] using rev_ind; intros m Hk.
  - repeat split.
  - rewrite map_app. simpl. rewrite applyl_snoc. destruct (IH m) as (P & L & G); [intros; apply Hk; apply in_app_iff; now left|].
    remember (applyl (map (set_word old) ks) m) as m1 eqn:Em1. clear Em1 IH.
    unfold wordwise, set_word. simpl. rewrite setw_length. repeat split; auto. intros j. rewrite getw_setw, L, existsb_app. simpl. rewrite orb_false_r.
    destruct (Nat.ltb_spec k (length (iser m))); [|exfalso; specialize (Hk k); rewrite in_app_iff in Hk; simpl in Hk; intuition lia].
    rewrite andb_true_r, G. destruct (Nat.eqb_spec j k) as [->|N0]; [|now rewrite orb_false_r, G]. rewrite orb_true_r. destruct (existsb (Nat.eqb k) ks); auto.
    now rewrite <- N.lor_assoc, N.lor_diag.
Qed.

Lemma active_in lines irqn exc mask k : In k (active lines irqn exc mask) <-> k < chunks lines irqn exc /\ getw mask k <> 0%N.
Proof.
  unfold active. rewrite filter_In, in_seq. split.
  - intros [H1 H2]. apply negb_true_iff, N.eqb_neq in H2. split; [lia|exact H2].
  - intros [H1 H2]. split; [lia|]. now apply negb_true_iff, N.eqb_neq.
Qed.
Lemma existsb_in k ks : existsb (Nat.eqb k) ks = true <-> In k ks.
Proof.
  rewrite existsb_exists. split.
  - intros (x & H & E). apply Nat.eqb_eq in E. now subst.
  - intros H. exists k. split; [exact H|apply Nat.eqb_refl].
Qed.

Ltac unfB := cbv [enter leave save hsave hleave admits bm bs source_backend].

Section SourceOk.
Context (A : lapp) (irqn : nat -> nat) (exc : nat -> bool) (m0 : nreg).
Notation lines := (l_lines A).
Notation prio := (l_prio A).
Notation chunks := (chunks lines irqn exc).
Notation cmask c := (compute_mask chunks (masks lines prio irqn exc) c).
Notation B := (source_backend lines prio irqn exc).
Context (Hi : forall i, In i lines -> 1 <= prio i <= 4)
        (Hinj : forall i j, In i lines -> In j lines -> exc i = false -> exc j = false -> irqn i = irqn j -> i = j)
        (H0 : chunks <= length (iser m0)).
Definition sgood (m : nreg) : Prop := chunks <= length (iser m).
Definition sfree (c i : nat) : bool := if 4 <=? c then false else exc i || (c <? prio i).

Lemma nreg_ext (a b : nreg) : nprimask a = nprimask b -> length (iser a) = length (iser b) -> (forall k, getw (iser a) k = getw (iser b) k) -> a = b.
Proof. destruct a as [x p], b as [y q]; simpl. intros -> L G. f_equal. apply (nth_ext _ _ 0%N 0%N); auto. intros n _. apply G. Qed.

Lemma firstn_incl {X} k (l : list X) x : In x (firstn k l) -> In x l.
Proof. revert k. induction l as [|y l IH]; intros [|k] H; simpl in *; try tauto. destruct H as [H|H]; [now left|right; eauto]. Qed.

Lemma enter_prefix m c k : sgood m -> c < 4 ->
  wordwise m (applyl (firstn k (enter B c)) m) (firstn k (active lines irqn exc (cmask c))) (fun j w => N.ldiff w (getw (cmask c) j)).
Proof.
  clear Hi Hinj H0.
  intros Hg Hc. unfB. destruct (Nat.leb_spec 4 c); [lia|]. rewrite firstn_map. apply clr_words.
  intros j Hj. apply firstn_incl in Hj. apply active_in in Hj as [Hj _]. unfold sgood in Hg. lia.
Qed.

Lemma leave_prefix m c k m1 : sgood m1 -> c < 4 ->
  wordwise m1 (applyl (firstn k (leave B c (save B m c))) m1) (firstn k (active lines irqn exc (cmask c)))
    (fun j w => N.lor w (getw (iser (save B m c)) j)).
Proof.
  clear Hi Hinj H0.
  intros Hg Hc. unfB. destruct (Nat.leb_spec 4 c); [lia|]. rewrite firstn_map. apply set_words.
  intros j Hj. apply firstn_incl in Hj. apply active_in in Hj as [Hj _]. unfold sgood in Hg. lia.
Qed.

Lemma saved_word m c j : c < 4 -> In j (active lines irqn exc (cmask c)) -> getw (iser (save B m c)) j = getw (iser m) j.
Proof.
  clear Hi Hinj H0.
  intros Hc Hj. apply active_in in Hj as [Hj Hn]. unfB. destruct (Nat.leb_spec 4 c); [lia|]. simpl. unfold read_mask. rewrite getw_map_seq by exact Hj.
  apply N.eqb_neq in Hn. now rewrite Hn.
Qed.

Lemma enter_full m c : sgood m -> c < 4 ->
  wordwise m (applyl (enter B c) m) (active lines irqn exc (cmask c)) (fun j w => N.ldiff w (getw (cmask c) j)).
Proof.
  intros Hg Hc. pose proof (@enter_prefix m c (length (enter B c)) Hg Hc) as H. rewrite firstn_all in H.
  rewrite firstn_all2 in H; [exact H|]. unfB. destruct (Nat.leb_spec 4 c); [lia|]. now rewrite map_length.
Qed.

Lemma enter_leave_prefix m c k : sgood m -> c < 4 -> exists ks,
  wordwise m (applyl (firstn k (leave B c (save B m c))) (applyl (enter B c) m)) ks (fun j w => N.ldiff w (getw (cmask c) j)) /\
  (length (active lines irqn exc (cmask c)) <= k -> ks = []).
Proof.
  intros Hg Hc. destruct (enter_full Hg Hc) as (P1 & L1 & G1).
  assert (Hg1 : sgood (applyl (enter B c) m)) by (unfold sgood in *; rewrite L1; exact Hg).
  destruct (@leave_prefix m c k _ Hg1 Hc) as (P2 & L2 & G2).
  exists (filter (fun j => negb (existsb (Nat.eqb j) (firstn k (active lines irqn exc (cmask c))))) (active lines irqn exc (cmask c))). split.
  - split; [congruence|]. split; [congruence|]. intros j. rewrite G2, G1.
    destruct (existsb (Nat.eqb j) (active lines irqn exc (cmask c))) eqn:Ea.
    + apply existsb_in in Ea. destruct (existsb (Nat.eqb j) (firstn k (active lines irqn exc (cmask c)))) eqn:Ek.
      * rewrite saved_word by assumption.
        replace (existsb (Nat.eqb j) (filter (fun j0 => negb (existsb (Nat.eqb j0) (firstn k (active lines irqn exc (cmask c))))) (active lines irqn exc (cmask c)))) with false.
        -- apply N.bits_inj. intros n. rewrite N.lor_spec, N.ldiff_spec. destruct (N.testbit (getw (iser m) j) n); simpl; auto. apply orb_true_r.
        -- symmetry. apply not_true_is_false. intros X. apply existsb_in, filter_In in X as [_ X]. rewrite Ek in X. discriminate.
      * replace (existsb (Nat.eqb j) (filter (fun j0 => negb (existsb (Nat.eqb j0) (firstn k (active lines irqn exc (cmask c))))) (active lines irqn exc (cmask c)))) with true; [reflexivity|].
        symmetry. apply existsb_in, filter_In. split; [exact Ea|]. now rewrite Ek.
    + assert (Ek : existsb (Nat.eqb j) (firstn k (active lines irqn exc (cmask c))) = false).
      { apply not_true_is_false. intros X. apply existsb_in, firstn_incl in X. apply existsb_in in X. congruence. }
      rewrite Ek.
      replace (existsb (Nat.eqb j) (filter (fun j0 => negb (existsb (Nat.eqb j0) (firstn k (active lines irqn exc (cmask c))))) (active lines irqn exc (cmask c)))) with false; [reflexivity|].
      symmetry. apply not_true_is_false. intros X. apply existsb_in, filter_In in X as [X _]. apply existsb_in in X. congruence.
  - intros Hk. rewrite firstn_all2 by exact Hk. generalize (active lines irqn exc (cmask c)) at 1 2 as l. intros l.
    assert (forall l', (forall x, In x l' -> In x l) -> filter (fun j => negb (existsb (Nat.eqb j) l)) l' = []).
    { induction l' as [|x l' IH]; intros Hs; [reflexivity|]. simpl. replace (existsb (Nat.eqb x) l) with true by (symmetry; apply existsb_in, Hs; now left). simpl. apply IH. intros; apply Hs; now right. }
    apply H. auto.
Qed.

Lemma admits_eq m i : admits B m i = (negb (nprimask m) && (exc i || N.testbit (getw (iser m) (irqn i / 32)) (N.of_nat (irqn i mod 32))))%bool.
Proof. reflexivity. Qed.

(** Effect of word-wise clearing on one interrupt. *)
Lemma wordwise_admit m m' ks c i : wordwise m m' ks (fun j w => N.ldiff w (getw (cmask c) j)) -> In i lines -> c < 4 ->
  (admits B m' i = true -> admits B m i = true) /\ (admits B m i = true -> sfree c i = true -> admits B m' i = true).
Proof.
  intros (P & L & G) Hin Hc. unfB. rewrite P, G. unfold sfree. destruct (Nat.leb_spec 4 c); [lia|].
  destruct (nprimask m); cbn [negb andb orb]; [split; discriminate|]. destruct (exc i) eqn:Ee; cbn [negb andb orb]; [auto|]. split.
  - destruct (existsb (Nat.eqb (irqn i / 32)) ks); [|auto]. rewrite N.ldiff_spec. intros X. now apply andb_prop in X.
  - intros Ha Hf. destruct (existsb (Nat.eqb (irqn i / 32)) ks); [|exact Ha]. rewrite N.ldiff_spec, Ha. cbn [negb andb orb].
    apply negb_true_iff. apply not_true_is_false. intros X.
    destruct (@compute_mask_spec lines prio irqn exc c ltac:(lia)) as [_ Hm]. apply Hm in X as (i' & Hi' & Ee' & Hp & En).
    assert (i' = i) by (apply Hinj; auto). subst i'. apply Nat.ltb_lt in Hf. lia.
Qed.

Lemma source_ok : backend_ok B A 4 m0 sgood (fun _ _ => True) sfree.
Proof.
  assert (HE : forall c k, 4 <= c -> firstn k (enter B c) = [] \/ firstn k (enter B c) = enter B c).
  { intros c k Hc. unfB. destruct (Nat.leb_spec 4 c); [|lia]. destruct k; simpl; [now left|right; now rewrite firstn_nil]. }
  assert (HL : forall c s k, 4 <= c -> firstn k (leave B c s) = [] \/ firstn k (leave B c s) = leave B c s).
  { intros c s k Hc. unfB. destruct (Nat.leb_spec 4 c); [|lia]. destruct k; simpl; [now left|right; now rewrite firstn_nil]. }
  assert (HR : forall m c, sgood m -> applyl (leave B c (save B m c)) (applyl (enter B c) m) = m).
  { intros m c Hg. destruct (Nat.lt_ge_cases c 4) as [Hc|Hc].
    - destruct (@enter_leave_prefix m c (length (leave B c (save B m c))) Hg Hc) as (ks & (P & L & G) & Hks). rewrite firstn_all in P, L, G.
      rewrite Hks in G; [apply nreg_ext; auto|]. unfB. destruct (Nat.leb_spec 4 c); [lia|]. now rewrite map_length.
    - unfB. destruct (Nat.leb_spec 4 c); [|lia]. simpl. destruct m as [w []]; reflexivity. }
  assert (HC : forall m c i, 4 <= c -> admits B (applyl (enter B c) m) i = false).
  { intros m c i Hc. unfB. destruct (Nat.leb_spec 4 c); [|lia]. reflexivity. }
  constructor; [constructor|..]; auto.
  - intros m c k Hg _ Hc. destruct (Nat.lt_ge_cases c 4) as [H4|H4].
    + destruct (@enter_prefix m c k Hg H4) as (P & L & G). unfold sgood in *. now rewrite L.
    + destruct (HE c k H4) as [-> | ->]; [exact Hg|]. unfB. destruct (Nat.leb_spec 4 c); [|lia]. exact Hg.
  - intros m c k Hg _ Hc. destruct (Nat.lt_ge_cases c 4) as [H4|H4].
    + destruct (@enter_leave_prefix m c k Hg H4) as (ks & (P & L & G) & _). unfold sgood in *. now rewrite L.
    + destruct (HL c (save B m c) k H4) as [-> | ->]; [|rewrite HR; exact Hg]. unfB. destruct (Nat.leb_spec 4 c); [|lia]. exact Hg.
  - intros m c k i Hg _ Hc Hin Ha Hf. destruct (Nat.lt_ge_cases c 4) as [H4|H4].
    + exact (proj2 (wordwise_admit i (@enter_prefix m c k Hg H4) Hin H4) Ha Hf).
    + unfold sfree in Hf. destruct (Nat.leb_spec 4 c); [discriminate|lia].
  - intros m c k i Hg _ Hc Hin Ha Hf. destruct (Nat.lt_ge_cases c 4) as [H4|H4].
    + destruct (@enter_leave_prefix m c k Hg H4) as (ks & Hw & _). exact (proj2 (wordwise_admit i Hw Hin H4) Ha Hf).
    + unfold sfree in Hf. destruct (Nat.leb_spec 4 c); [discriminate|lia].
  - intros m c i Hg _ Hc Hin. destruct (Nat.lt_ge_cases c 4) as [H4|H4].
    + destruct (enter_full Hg H4) as (P & L & G). rewrite !admits_eq, P, G. unfold sfree. destruct (Nat.leb_spec 4 c); [lia|].
      destruct (nprimask m); cbn [negb andb orb]; [reflexivity|]. destruct (exc i) eqn:Ee; cbn [negb andb orb]; [reflexivity|].
      destruct (@compute_mask_spec lines prio irqn exc c ltac:(lia)) as [_ Hm].
      destruct (existsb (Nat.eqb (irqn i / 32)) (active lines irqn exc (cmask c))) eqn:Ea.
      * rewrite N.ldiff_spec. f_equal. destruct (Nat.ltb_spec c (prio i)) as [Hlt|Hle].
        -- apply negb_true_iff, not_true_is_false. intros X. apply Hm in X as (i' & Hi' & Ee' & Hp & En). assert (i' = i) by (apply Hinj; auto). subst i'. lia.
        -- apply negb_false_iff. apply Hm. exists i. specialize (Hi i Hin). repeat split; auto; lia.
      * destruct (Nat.ltb_spec c (prio i)) as [Hlt|Hle]; [now rewrite andb_true_r|]. exfalso.
        assert (Hb : mbit (cmask c) (irqn i) = true) by (apply Hm; exists i; specialize (Hi i Hin); repeat split; auto; lia).
        assert (X : In (irqn i / 32) (active lines irqn exc (cmask c))).
        { apply active_in. split.
          - apply chunks_enough. unfold all_ids. apply in_map, filter_In. split; [exact Hin|]. now rewrite Ee.
          - intros X. unfold mbit in Hb. rewrite X, N.bits_0 in Hb. discriminate. }
        apply existsb_in in X. congruence.
    + rewrite HC by exact H4. unfold sfree. destruct (Nat.leb_spec 4 c); [|lia]. now rewrite andb_false_r.
  - intros m c k i Hg _ Hc Hin Ha. destruct (Nat.lt_ge_cases c 4) as [H4|H4].
    + exact (proj1 (wordwise_admit i (@enter_prefix m c k Hg H4) Hin H4) Ha).
    + destruct (HE c k H4) as [E|E]; rewrite E in Ha; [exact Ha|]. rewrite HC in Ha by exact H4. discriminate.
  - intros m c k i Hg _ Hc Hin Ha. destruct (Nat.lt_ge_cases c 4) as [H4|H4].
    + destruct (@enter_leave_prefix m c k Hg H4) as (ks & Hw & _). exact (proj1 (wordwise_admit i Hw Hin H4) Ha).
    + destruct (HL c (save B m c) k H4) as [E|E]; rewrite E in Ha; [change (admits B (applyl (enter B c) m) i = true) in Ha; rewrite HC in Ha by exact H4; discriminate|].
      now rewrite HR in Ha.
Qed.
End SourceOk.
