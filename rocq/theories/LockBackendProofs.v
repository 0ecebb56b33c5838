From Coq Require Import NArith.
From Verif Require Import Base LTS LockModel LockSpec LockProofs LockBackends.
Set Implicit Arguments.

(** * Priority mapping *)
Lemma hw_value bits c : 1 <= bits <= 7 -> 1 <= c <= 2 ^ bits -> logical2hw c bits = Some ((2 ^ bits - c) * 2 ^ (8 - bits)).
Proof.
  intros Hb Hc. unfold logical2hw, shl8, sub8.
  assert (H2 : 2 ^ bits * 2 ^ (8 - bits) = 256) by (rewrite <- Nat.pow_add_r; replace (bits + (8 - bits)) with 8 by lia; reflexivity).
  assert (Hp : 0 < 2 ^ (8 - bits)) by (apply Nat.neq_0_lt_0, Nat.pow_nonzero; lia).
  assert (H7 : 2 ^ bits <= 2 ^ 7) by (apply Nat.pow_le_mono_r; lia). change (2 ^ 7) with 128 in H7.
  destruct (Nat.ltb_spec bits 8); [|lia]. rewrite Nat.mul_1_l, Nat.mod_small by lia.
  destruct (Nat.leb_spec c (2 ^ bits)); [|lia]. destruct (Nat.leb_spec bits 8); [|lia]. destruct (Nat.ltb_spec (8 - bits) 8); [|lia].
  rewrite Nat.mod_small; [reflexivity|]. nia.
Qed.

Lemma is_max_spec bits c : 1 <= bits <= 7 -> is_max bits c = (c =? 2 ^ bits).
Proof.
  intros Hb. unfold is_max, shl8. destruct (Nat.ltb_spec bits 8); [|lia].
  assert (H7 : 2 ^ bits <= 2 ^ 7) by (apply Nat.pow_le_mono_r; lia). change (2 ^ 7) with 128 in H7.
  rewrite Nat.mul_1_l, Nat.mod_small by lia. reflexivity.
Qed.

Lemma hw_eq bits c : 1 <= bits <= 7 -> 1 <= c <= 2 ^ bits -> hw bits c = (2 ^ bits - c) * 2 ^ (8 - bits).
Proof. intros Hb Hc. unfold hw. now rewrite hw_value. Qed.
Lemma hw_zero bits : 1 <= bits <= 7 -> hw bits 0 = 0.
Proof.
  intros Hb. unfold hw, logical2hw, shl8, sub8. destruct (Nat.ltb_spec bits 8); [|lia].
  assert (H7 : 2 ^ bits <= 2 ^ 7) by (apply Nat.pow_le_mono_r; lia). change (2 ^ 7) with 128 in H7.
  rewrite Nat.mul_1_l, Nat.mod_small by lia. destruct (Nat.leb_spec 0 (2 ^ bits)); [|lia]. destruct (Nat.leb_spec bits 8); [|lia]. destruct (Nat.ltb_spec (8 - bits) 8); [|lia].
  rewrite Nat.sub_0_r, <- Nat.pow_add_r. replace (bits + (8 - bits)) with 8 by lia. reflexivity.
Qed.
Lemma hw_lt bits c d : 1 <= bits <= 7 -> 1 <= c <= 2 ^ bits -> 1 <= d <= 2 ^ bits -> (hw bits c < hw bits d <-> d < c).
Proof.
  intros Hb Hc Hd. rewrite !hw_eq by assumption.
  assert (Hp : 0 < 2 ^ (8 - bits)) by (apply Nat.neq_0_lt_0, Nat.pow_nonzero; lia). split; nia.
Qed.
Lemma hw_pos bits c : 1 <= bits <= 7 -> 1 <= c < 2 ^ bits -> 0 < hw bits c.
Proof.
  intros Hb Hc. rewrite hw_eq by lia. assert (Hp : 0 < 2 ^ (8 - bits)) by (apply Nat.neq_0_lt_0, Nat.pow_nonzero; lia). nia.
Qed.

Lemma firstn_one {X} k (x : X) : firstn k [x] = [] \/ firstn k [x] = [x].
Proof. destruct k; [now left|right]. simpl. now rewrite firstn_nil. Qed.

(** * BASEPRI *)
Section Basepri.
Context (bits : nat) (A : lapp) (Hb : 1 <= bits <= 7) (Hi : forall i, In i (l_lines A) -> 1 <= l_prio A i <= 2 ^ bits).
Notation B := (basepri_backend bits (l_prio A)).
Definition bgood (m : breg) : Prop := basepri m = 0 \/ exists c, 1 <= c < 2 ^ bits /\ basepri m = hw bits c.

Lemma bp_good_max m c : bgood m -> c < 2 ^ bits -> bgood (basepri_max (hw bits c) m).
Proof.
  intros Hg Hc. unfold basepri_max. destruct (Nat.eqb_spec (hw bits c) 0) as [E|E]; simpl; [exact Hg|].
  destruct ((basepri m =? 0) || (hw bits c <? basepri m))%bool; [|exact Hg].
  right. exists c. split; [|reflexivity]. destruct c; [rewrite hw_zero in E by assumption; congruence|lia].
Qed.

Lemma bp_mask m c i : bgood m -> c <= 2 ^ bits -> In i (l_lines A) -> admits B (applyl (enter B c) m) i = (admits B m i && (c <? l_prio A i))%bool.
Proof.
  intros Hg Hc Hin. specialize (Hi i Hin). simpl. rewrite is_max_spec by assumption. destruct (Nat.eqb_spec c (2 ^ bits)) as [E|E]; simpl.
  - destruct (Nat.ltb_spec c (l_prio A i)); [lia|]. now rewrite andb_false_r.
  - unfold basepri_max. destruct c as [|c].
    + rewrite hw_zero by assumption. simpl. destruct (Nat.ltb_spec 0 (l_prio A i)); [|lia]. now rewrite andb_true_r.
    + pose proof (@hw_pos bits (S c) Hb ltac:(lia)) as Hp. destruct (Nat.eqb_spec (hw bits (S c)) 0); [lia|]. simpl negb. rewrite andb_true_l.
      destruct (primask m) eqn:Ep; [destruct ((basepri m =? 0) || (hw bits (S c) <? basepri m))%bool; simpl; rewrite ?Ep; reflexivity|].
      pose proof (@hw_lt bits (l_prio A i) (S c) Hb Hi ltac:(lia)) as Hlt.
      destruct (Nat.eqb_spec (basepri m) 0) as [E0|E0]; simpl.
      * rewrite ?Ep. simpl. destruct (Nat.eqb_spec (hw bits (S c)) 0); [lia|]. simpl. destruct (Nat.ltb_spec (hw bits (l_prio A i)) (hw bits (S c))), (Nat.ltb_spec (S c) (l_prio A i)); auto; lia.
      * destruct (Nat.ltb_spec (hw bits (S c)) (basepri m)); simpl; rewrite ?Ep; simpl.
        -- destruct (Nat.eqb_spec (hw bits (S c)) 0); [lia|]. simpl. destruct (Nat.ltb_spec (hw bits (l_prio A i)) (hw bits (S c))), (Nat.ltb_spec (hw bits (l_prio A i)) (basepri m)), (Nat.ltb_spec (S c) (l_prio A i)); auto; lia.
        -- destruct (Nat.eqb_spec (basepri m) 0); [lia|]. simpl. destruct (Nat.ltb_spec (hw bits (l_prio A i)) (basepri m)), (Nat.ltb_spec (S c) (l_prio A i)); auto; lia.
Qed.

Lemma bp_restore m c : applyl (leave B c (save B m c)) (applyl (enter B c) m) = m.
Proof.
  simpl. destruct (is_max bits c); simpl.
  - unfold cs_leave, cs_enter. destruct m as [b p]; simpl. destruct p; reflexivity.
  - unfold basepri_max. destruct (negb (hw bits c =? 0) && ((basepri m =? 0) || (hw bits c <? basepri m)))%bool; destruct m; reflexivity.
Qed.

Lemma basepri_ok : backend_ok B A (2 ^ bits) breg0 bgood (fun _ _ => True) (fun c i => c <? l_prio A i).
Proof.
  assert (HG : forall m c, bgood m -> c <= 2 ^ bits -> bgood (applyl (enter B c) m)).
  { intros m c Hg Hc. simpl. rewrite is_max_spec by assumption. destruct (Nat.eqb_spec c (2 ^ bits)); simpl; [exact Hg|]. apply bp_good_max; [exact Hg|lia]. }
  assert (HE : forall c k, firstn k (enter B c) = [] \/ firstn k (enter B c) = enter B c) by (intros c k; simpl; destruct (is_max bits c); apply firstn_one).
  assert (HL : forall c s k, firstn k (leave B c s) = [] \/ firstn k (leave B c s) = leave B c s) by (intros c s k; simpl; destruct (is_max bits c); apply firstn_one).
  constructor; [constructor|..]; auto.
  - now left.
  - intros m c k Hg _ Hc. destruct (HE c k) as [-> | ->]; [exact Hg|apply HG; assumption].
  - intros m c k Hg _ Hc. destruct (HL c (save B m c) k) as [-> | ->]; [apply HG; assumption|]. rewrite bp_restore. exact Hg.
  - intros m c _ _ _. apply bp_restore.
  - intros m i Hg Hin Ha. simpl in *. destruct m as [b p]; simpl in *. f_equal. destruct (Nat.eqb_spec (l_prio A i) 1) as [E|E]; [|reflexivity].
    apply andb_prop in Ha as [_ Ha]. destruct Hg as [Hg|(c & Hc & Hg)]; simpl in Hg; [congruence|]. exfalso.
    apply orb_prop in Ha as [Ha|Ha]; [apply Nat.eqb_eq in Ha; pose proof (hw_pos Hb Hc); lia|]. apply Nat.ltb_lt in Ha. rewrite Hg, E in Ha.
    apply hw_lt in Ha; lia.
  - intros m c k i Hg _ Hc Hin Ha Hf. destruct (HE c k) as [-> | ->]; [exact Ha|]. rewrite bp_mask by assumption. now rewrite Ha, Hf.
  - intros m c k i Hg _ Hc Hin Ha Hf. destruct (HL c (save B m c) k) as [-> | ->]; [|now rewrite bp_restore].
    change (admits B (applyl (enter B c) m) i = true). rewrite bp_mask by assumption. now rewrite Ha, Hf.
  - intros m c i Hg _ Hc Hin. now apply bp_mask.
  - intros m c k i Hg _ Hc Hin Ha. destruct (HE c k) as [E|E]; rewrite E in Ha; [exact Ha|]. rewrite bp_mask in Ha by assumption. now apply andb_prop in Ha.
  - intros m c k i Hg _ Hc Hin Ha. destruct (HL c (save B m c) k) as [E|E]; rewrite E in Ha; [|now rewrite bp_restore in Ha].
    change (admits B (applyl (enter B c) m) i = true) in Ha. rewrite bp_mask in Ha by assumption. now apply andb_prop in Ha.
Qed.
End Basepri.

(** * Threshold (ESP32-C3 / C6): only for locks nested with non-decreasing ceilings. *)
Section Thresh.
Context (A : lapp) (Hi : forall i, In i (l_lines A) -> 1 <= l_prio A i <= 15) (Hn : forall c c', l_nest A c c' = true -> c <= c').
Notation B := (thresh_backend (l_prio A)).

Lemma th_mask m c i : thresh m <= c + 1 -> c <= 15 -> In i (l_lines A) -> admits B (applyl (enter B c) m) i = (admits B m i && (c <? l_prio A i))%bool.
Proof.
  intros Hk Hc Hin. specialize (Hi i Hin). simpl. destruct (Nat.eqb_spec c 15); simpl.
  - destruct (Nat.ltb_spec c (l_prio A i)); [lia|]. now rewrite andb_false_r.
  - destruct (mie_off m); simpl; [reflexivity|]. destruct (Nat.leb_spec (c + 1) (l_prio A i)), (Nat.leb_spec (thresh m) (l_prio A i)), (Nat.ltb_spec c (l_prio A i)); auto; lia.
Qed.
Lemma th_restore m c : applyl (leave B c (save B m c)) (applyl (enter B c) m) = m.
Proof. simpl. destruct (c =? 15); simpl; destruct m as [t []]; reflexivity. Qed.

Lemma thresh_ok : backend_ok B A 15 treg0 (fun m => 1 <= thresh m) (fun m c => thresh m <= c + 1) (fun c i => c <? l_prio A i).
Proof.
  assert (HG : forall m c, 1 <= thresh m -> 1 <= thresh (applyl (enter B c) m)) by (intros m c H; simpl; destruct (c =? 15); simpl; lia).
  assert (HE : forall c k, firstn k (enter B c) = [] \/ firstn k (enter B c) = enter B c) by (intros c k; simpl; destruct (c =? 15); apply firstn_one).
  assert (HL : forall c s k, firstn k (leave B c s) = [] \/ firstn k (leave B c s) = leave B c s) by (intros c s k; simpl; destruct (c =? 15); apply firstn_one).
  constructor; [constructor|..].
  - simpl. lia.
  - intros c Hc. simpl. lia.
  - intros m i c Hg Hin Ha Hp Hc. simpl in Ha. apply andb_prop in Ha as [_ Ha]. apply Nat.leb_le in Ha. lia.
  - intros m c c' Hg Hk Hc' Hc Hnest. apply Hn in Hnest. simpl. destruct (Nat.eqb_spec c' 15); simpl; lia.
  - intros m c k Hg _ Hc. destruct (HE c k) as [-> | ->]; [exact Hg|apply HG; assumption].
  - intros m c k Hg _ Hc. destruct (HL c (save B m c) k) as [-> | ->]; [apply HG; assumption|]. rewrite th_restore. exact Hg.
  - intros m c _ _ _. apply th_restore.
  - intros m i Hg Hin Ha. simpl in *. destruct m as [t p]; simpl in *. f_equal. destruct (Nat.eqb_spec (l_prio A i) 1) as [E|E]; [|reflexivity].
    apply andb_prop in Ha as [_ Ha]. apply Nat.leb_le in Ha. lia.
  - intros m c k i Hg Hk Hc Hin Ha Hf. destruct (HE c k) as [-> | ->]; [exact Ha|]. rewrite th_mask by assumption. now rewrite Ha, Hf.
  - intros m c k i Hg Hk Hc Hin Ha Hf. destruct (HL c (save B m c) k) as [-> | ->]; [|now rewrite th_restore].
    change (admits B (applyl (enter B c) m) i = true). rewrite th_mask by assumption. now rewrite Ha, Hf.
  - intros m c i Hg Hk Hc Hin. now apply th_mask.
  - intros m c k i Hg Hk Hc Hin Ha. destruct (HE c k) as [E|E]; rewrite E in Ha; [exact Ha|]. rewrite th_mask in Ha by assumption. now apply andb_prop in Ha.
  - intros m c k i Hg Hk Hc Hin Ha. destruct (HL c (save B m c) k) as [E|E]; rewrite E in Ha; [|now rewrite th_restore in Ha].
    change (admits B (applyl (enter B c) m) i = true) in Ha. rewrite th_mask in Ha by assumption. now apply andb_prop in Ha.
Qed.
End Thresh.

(** Whatever the nesting, the threshold registers are restored, and do not mask too much. *)
Lemma thresh_base (A : lapp) (Hi : forall i, In i (l_lines A) -> 1 <= l_prio A i <= 15) : backend_base (thresh_backend (l_prio A)) A 15 treg0 (fun m => 1 <= thresh m) (fun _ _ => True) (fun c i => c <? l_prio A i).
Proof.
  set (B := thresh_backend (l_prio A)).
  assert (HG : forall m c, 1 <= thresh m -> 1 <= thresh (applyl (enter B c) m)) by (intros m c H; simpl; destruct (c =? 15); simpl; lia).
  assert (HE : forall c k, firstn k (enter B c) = [] \/ firstn k (enter B c) = enter B c) by (intros c k; simpl; destruct (c =? 15); apply firstn_one).
  assert (HL : forall c s k, firstn k (leave B c s) = [] \/ firstn k (leave B c s) = leave B c s) by (intros c s k; simpl; destruct (c =? 15); apply firstn_one).
  constructor; auto.
  - intros m c k Hg _ Hc. destruct (HE c k) as [-> | ->]; [exact Hg|apply HG; assumption].
  - intros m c k Hg _ Hc. destruct (HL c (save B m c) k) as [-> | ->]; [apply HG; assumption|]. unfold B. rewrite th_restore. exact Hg.
  - intros m c _ _ _. apply th_restore.
  - intros m i Hg Hin Ha. simpl in *. destruct m as [t p]; simpl in *. f_equal. destruct (Nat.eqb_spec (l_prio A i) 1) as [E|E]; [|reflexivity].
    apply andb_prop in Ha as [_ Ha]. apply Nat.leb_le in Ha. lia.
  - intros m c k i Hg _ Hc Hin Ha Hf. destruct (HE c k) as [-> | ->]; [exact Ha|]. simpl in *. apply andb_prop in Ha as [Ha Hb]. apply Nat.ltb_lt in Hf. specialize (Hi i Hin). destruct (Nat.eqb_spec c 15); simpl; [lia|]. rewrite Ha. apply Nat.leb_le. lia.
  - intros m c k i Hg _ Hc Hin Ha Hf. destruct (HL c (save B m c) k) as [-> | ->]; [|unfold B; now rewrite th_restore]. simpl in *. apply andb_prop in Ha as [Ha Hb]. apply Nat.ltb_lt in Hf. specialize (Hi i Hin). destruct (Nat.eqb_spec c 15); simpl; [lia|]. rewrite Ha. apply Nat.leb_le. lia.
Qed.
