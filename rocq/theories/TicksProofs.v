From Coq Require Import ZArith Lia Bool.
From Verif Require Import TicksModel.
Open Scope Z_scope.

Lemma pow_split w : 1 <= w -> 2 ^ w = 2 * 2 ^ (w - 1).
Proof. intros H. replace w with (Z.succ (w - 1)) at 1 by lia. rewrite Z.pow_succ_r; lia. Qed.

Lemma half_pos w : 1 <= w -> 0 < 2 ^ (w - 1).
Proof. intros. apply Z.pow_pos_nonneg; lia. Qed.

(** signed difference of true times within the half-range window *)
Lemma signed_sub w A B : 1 <= w ->
  - 2 ^ (w - 1) <= A - B < 2 ^ (w - 1) ->
  as_signed w (wsub w (A mod 2 ^ w) (B mod 2 ^ w)) = A - B.
Proof.
  intros Hw Hd. pose proof (half_pos w Hw) as Hh. pose proof (pow_split w Hw) as Hs.
  unfold wsub, as_signed. rewrite <- Zminus_mod.
  set (h := 2 ^ (w - 1)) in *. rewrite Hs.
  destruct (Z.ltb_spec (A - B) 0).
  - assert (E : (A - B) mod (2 * h) = A - B + 2 * h).
    { symmetry. apply Z.mod_unique with (q := -1); lia. }
    rewrite E. destruct (Z.ltb_spec (A - B + 2 * h) h); lia.
  - rewrite Z.mod_small by lia. destruct (Z.ltb_spec (A - B) h); lia.
Qed.

Lemma compare_window w A B : 1 <= w ->
  - 2 ^ (w - 1) <= A - B < 2 ^ (w - 1) ->
  compare w (A mod 2 ^ w) (B mod 2 ^ w) = (A ?= B).
Proof.
  intros Hw Hd. unfold compare. rewrite signed_sub by assumption.
  destruct (Z.compare_spec A B); destruct (Z.compare_spec (A - B) 0); (reflexivity || lia).
Qed.

Lemma is_at_least_window w A B : 1 <= w ->
  - 2 ^ (w - 1) <= A - B < 2 ^ (w - 1) ->
  is_at_least w (A mod 2 ^ w) (B mod 2 ^ w) = (B <=? A).
Proof.
  intros Hw Hd. unfold is_at_least. rewrite compare_window by assumption.
  destruct (Z.compare_spec A B); destruct (Z.leb_spec B A); (reflexivity || lia).
Qed.

Lemma tick_lt_window w A B : 1 <= w ->
  - 2 ^ (w - 1) <= A - B < 2 ^ (w - 1) ->
  tick_lt w (A mod 2 ^ w) (B mod 2 ^ w) = (A <? B).
Proof.
  intros Hw Hd. unfold tick_lt. rewrite compare_window by assumption.
  destruct (Z.compare_spec A B); destruct (Z.ltb_spec A B); (reflexivity || lia).
Qed.

(** Outside the window the answer is that of the congruent distance: flipped between half and full range. *)
Lemma compare_flipped w A B : 1 <= w ->
  2 ^ (w - 1) <= A - B < 2 ^ w -> compare w (A mod 2 ^ w) (B mod 2 ^ w) = Lt.
Proof.
  intros Hw Hd. pose proof (half_pos w Hw). pose proof (pow_split w Hw).
  replace (A mod 2 ^ w) with ((A - 2 ^ w) mod 2 ^ w).
  2:{ replace (A - 2 ^ w) with (A + (-1) * 2 ^ w) by lia. apply Z.mod_add. lia. }
  rewrite compare_window by lia. apply Z.compare_lt_iff. lia.
Qed.

Lemma delay_deadline_true w now d :
  1 <= w -> 0 <= d < 2 ^ w ->
  delay_deadline w (now mod 2 ^ w) d =
  (if d =? 0 then now else now + d + 1) mod 2 ^ w.
Proof.
  intros Hw Hd. unfold delay_deadline, wadd.
  pose proof (half_pos w Hw) as Hh. pose proof (pow_split w Hw) as Hs.
  rewrite Z.add_mod_idemp_l by lia.
  destruct (Z.eqb_spec d 0) as [->|Hne].
  - rewrite Z.add_0_r, Z.eqb_refl. reflexivity.
  - destruct (Z.eqb_spec (now mod 2 ^ w) ((now + d) mod 2 ^ w)) as [E|_].
    + exfalso. assert (H0 : ((now + d) - now) mod 2 ^ w = 0).
      { rewrite Zminus_mod, <- E, Z.sub_diag. apply Z.mod_0_l. lia. }
      replace (now + d - now) with d in H0 by lia. rewrite Z.mod_small in H0; lia.
    + now rewrite Z.add_mod_idemp_l by lia.
Qed.

(** [P] real-time units per tick: the counter shows [r / P]. *)
Lemma delay_not_early w P r0 r1 d :
  1 <= w -> 0 < P -> r0 <= r1 -> 0 <= d -> d + 1 <= 2 ^ (w - 1) ->
  delay_ready w ((r1 / P) mod 2 ^ w) (delay_deadline w ((r0 / P) mod 2 ^ w) d) = true ->
  d * P <= r1 - r0.
Proof.
  intros Hw HP Hr Hd Hdw Hrdy. unfold delay_ready in Hrdy.
  pose proof (half_pos w Hw). pose proof (pow_split w Hw).
  rewrite delay_deadline_true in Hrdy by lia.
  destruct (Z.eqb_spec d 0) as [->|Hne]; [lia|].
  assert (Hm : r0 / P <= r1 / P) by (apply Z.div_le_mono; lia).
  destruct (Z.le_gt_cases (r0 / P + d + 1) (r1 / P)) as [Hle|Hgt].
  - pose proof (Z.mul_div_le r1 P HP). pose proof (Z.mul_succ_div_gt r0 P HP). nia.
  - rewrite is_at_least_window in Hrdy by lia. apply Z.leb_le in Hrdy. lia.
Qed.

(** Ready as soon as the counter has advanced d+1 ticks (d = 0: at once), for less than half the range. *)
Lemma delay_prompt w n0 n1 d :
  1 <= w -> 0 <= d -> d + 1 <= 2 ^ (w - 1) ->
  (if d =? 0 then 0 else d + 1) <= n1 - n0 < 2 ^ (w - 1) ->
  delay_ready w (n1 mod 2 ^ w) (delay_deadline w (n0 mod 2 ^ w) d) = true.
Proof.
  intros Hw Hd Hdw Hn. unfold delay_ready.
  pose proof (half_pos w Hw). pose proof (pow_split w Hw).
  rewrite delay_deadline_true by lia.
  rewrite is_at_least_window by (destruct (Z.eqb_spec d 0); lia).
  apply Z.leb_le. destruct (Z.eqb_spec d 0); lia.
Qed.

Lemma delay_until_not_early w n1 T :
  1 <= w -> - 2 ^ (w - 1) <= n1 - T < 2 ^ (w - 1) ->
  delay_ready w (n1 mod 2 ^ w) (T mod 2 ^ w) = true -> T <= n1.
Proof.
  intros Hw Hd Hr. unfold delay_ready in Hr. rewrite is_at_least_window in Hr by assumption.
  now apply Z.leb_le.
Qed.

Lemma window_exact w A B : 1 <= w -> 2 ^ (w - 1) <= A - B < 2 ^ w ->
  compare w (A mod 2 ^ w) (B mod 2 ^ w) = Lt /\ (A ?= B) = Gt.
Proof.
  intros Hw Hd. split; [now apply compare_flipped|].
  pose proof (half_pos w Hw). apply Z.compare_gt_iff. lia.
Qed.

(** A delay of at least half the range: the deadline looks past already. *)
Lemma delay_beyond_half_immediate w n0 d :
  1 <= w -> 2 ^ (w - 1) <= d -> d + 1 < 2 ^ w ->
  delay_ready w (n0 mod 2 ^ w) (delay_deadline w (n0 mod 2 ^ w) d) = true.
Proof.
  intros Hw Hd1 Hd2. pose proof (half_pos w Hw). pose proof (pow_split w Hw).
  rewrite delay_deadline_true by lia. unfold delay_ready.
  destruct (Z.eqb_spec d 0); [lia|].
  replace ((n0 + d + 1) mod 2 ^ w) with ((n0 + d + 1 - 2 ^ w) mod 2 ^ w).
  2:{ replace (n0 + d + 1 - 2 ^ w) with (n0 + d + 1 + (-1) * 2 ^ w) by lia. apply Z.mod_add. lia. }
  rewrite is_at_least_window by lia. apply Z.leb_le. lia.
Qed.
