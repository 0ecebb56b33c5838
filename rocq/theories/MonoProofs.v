From Verif Require Import Base LTS TicksModel TicksProofs MonoModel TimerQueueModel.
From Coq Require Import ZArith Lia Bool Sorting.Sorted.
Open Scope Z_scope.
Set Implicit Arguments.

(** * calculate_now *)
Lemma land_half B hp : 1 <= B -> 0 <= hp ->
  Z.land (2 ^ (B - 1)) (hp * 2 ^ (B - 1)) = if Z.odd hp then 2 ^ (B - 1) else 0.
Proof.
  intros HB Hhp. rewrite <- Z.shiftl_mul_pow2 by lia.
  replace (2 ^ (B - 1)) with (Z.shiftl 1 (B - 1)) by (rewrite Z.shiftl_mul_pow2 by lia; lia).
  rewrite <- Z.shiftl_land.
  replace (Z.land 1 hp) with (if Z.odd hp then 1 else 0).
  - destruct (Z.odd hp); [reflexivity|apply Z.shiftl_0_l].
  - rewrite Z.land_comm. change 1 with (Z.ones 1) at 2. rewrite Z.land_ones by lia.
    change (2 ^ 1) with 2. rewrite Zmod_odd. reflexivity.
Qed.

Lemma testbit_high x n k : 0 <= x < 2 ^ k -> 0 <= k <= n -> Z.testbit x n = false.
Proof.
  intros Hx Hk. apply Z.testbit_false; [lia|]. rewrite Z.div_small; [reflexivity|].
  split; [lia|]. apply Z.lt_le_trans with (2 ^ k); [lia|]. apply Z.pow_le_mono_r; lia.
Qed.

Lemma land_small_pow k x : 0 <= k -> 0 <= x < 2 ^ k -> Z.land (2 ^ k) x = 0.
Proof.
  intros Hk Hx. apply Z.bits_inj'. intros n Hn. rewrite Z.land_spec, Z.bits_0.
  destruct (Z.eq_dec n k) as [->|Hne].
  - rewrite (@testbit_high x k k) by lia. apply andb_false_r.
  - rewrite Z.pow2_bits_false by lia. reflexivity.
Qed.

Lemma lxor_half k x : 0 <= k -> 0 <= x < 2 * 2 ^ k ->
  Z.lxor (2 ^ k) x = if x <? 2 ^ k then x + 2 ^ k else x - 2 ^ k.
Proof.
  intros Hk Hx. destruct (Z.ltb_spec x (2 ^ k)).
  - rewrite <- Z.add_nocarry_lxor by (apply land_small_pow; lia). lia.
  - set (y := x - 2 ^ k). replace x with (2 ^ k + y) by lia.
    rewrite Z.add_nocarry_lxor by (apply land_small_pow; lia).
    rewrite <- Z.lxor_assoc, Z.lxor_nilpotent, Z.lxor_0_l. reflexivity.
Qed.

(** general value: [hp] half periods counted and timer value [v] *)
Lemma calculate_now_value W B hp v :
  1 <= B -> 0 <= hp -> hp * 2 ^ (B - 1) < 2 ^ W -> 0 <= v < 2 ^ B ->
  calculate_now W B hp v =
  let r := hp * 2 ^ (B - 1) + (if Z.odd hp then (if v <? 2 ^ (B - 1) then v + 2 ^ (B - 1) else v - 2 ^ (B - 1)) else v) in
  if r <? 2 ^ W then Some r else None.
Proof.
  intros HB Hhp HW Hv. unfold calculate_now.
  pose proof (half_pos B HB) as Hh. pose proof (pow_split B HB) as Hs.
  assert (0 <= hp * 2 ^ (B - 1)) by nia.
  rewrite !Z.shiftl_mul_pow2 by lia. rewrite Z.mod_small by lia. rewrite Z.mul_1_l.
  rewrite land_half by lia. cbv zeta.
  destruct (Z.odd hp); [rewrite lxor_half by lia; reflexivity|rewrite Z.lxor_0_l; reflexivity].
Qed.

Lemma mod_double t h : 0 < h -> t mod (2 * h) = t mod h + (if Z.odd (t / h) then h else 0).
Proof.
  intros Hh. rewrite (Z.mul_comm 2 h), Z.rem_mul_r by lia. rewrite Zmod_odd. destruct (Z.odd (t / h)); lia.
Qed.

(** The half-period counter is current or lags by one half period: the result is the true time. *)
Lemma calculate_now_true W B hp t :
  1 <= B -> 0 <= hp -> 0 <= t < 2 ^ W ->
  hp <= t / 2 ^ (B - 1) <= hp + 1 ->
  calculate_now W B hp (t mod 2 ^ B) = Some t.
Proof.
  intros HB Hhp Ht Hlag.
  pose proof (half_pos B HB) as Hh. pose proof (pow_split B HB) as Hs.
  set (h := 2 ^ (B - 1)) in *.
  pose proof (Z.div_mod t h ltac:(lia)) as Hdm. pose proof (Z.mod_pos_bound t h Hh) as Hmb.
  rewrite calculate_now_value; fold h; [|lia|lia|nia|apply Z.mod_pos_bound; lia].
  rewrite Hs, mod_double by lia. cbv zeta.
  assert (Hcase : t / h = hp \/ t / h = hp + 1) by lia.
  destruct Hcase as [E|E]; rewrite E.
  - destruct (Z.odd hp) eqn:Eo.
    + destruct (Z.ltb_spec (t mod h + h) h); [lia|].
      destruct (Z.ltb_spec (hp * h + (t mod h + h - h)) (2 ^ W)); [f_equal|]; nia.
    + destruct (Z.ltb_spec (hp * h + (t mod h + 0)) (2 ^ W)); [f_equal|]; nia.
  - rewrite Z.add_1_r, Z.odd_succ, <- Z.negb_odd. destruct (Z.odd hp) eqn:Eo; simpl negb; cbv iota.
    + destruct (Z.ltb_spec (t mod h + 0) h); [|lia].
      destruct (Z.ltb_spec (hp * h + (t mod h + 0 + h)) (2 ^ W)); [f_equal|]; nia.
    + destruct (Z.ltb_spec (hp * h + (t mod h + h)) (2 ^ W)); [f_equal|]; nia.
Qed.

(** With a lag of two half periods time would jump back by a full period: the bound is exact. *)
Lemma calculate_now_lag2 W B hp t :
  1 <= B -> 0 <= hp -> 0 <= t < 2 ^ W -> t / 2 ^ (B - 1) = hp + 2 ->
  calculate_now W B hp (t mod 2 ^ B) = Some (t - 2 ^ B).
Proof.
  intros HB Hhp Ht Hlag.
  pose proof (half_pos B HB) as Hh. pose proof (pow_split B HB) as Hs.
  assert (E : t mod 2 ^ B = (t - 2 ^ B) mod 2 ^ B).
  { replace (t - 2 ^ B) with (t + (-1) * 2 ^ B) by lia. now rewrite Z.mod_add by lia. }
  rewrite E. set (h := 2 ^ (B - 1)) in *.
  pose proof (Z.div_mod t h ltac:(lia)) as Hdm. pose proof (Z.mod_pos_bound t h Hh) as Hmb.
  assert (Hd : (t - 2 ^ B) / h = hp).
  { replace (t - 2 ^ B) with (t + (-2) * h) by lia. rewrite Z.div_add by lia. lia. }
  apply calculate_now_true; fold h; try lia; nia.
Qed.

(** * Half-period interrupts *)
Section HP.
Context (B : Z) (k : isr_kind) (HB : 1 <= B).
Notation h := (2 ^ (B - 1)).

Definition sec_full := negb (first_full k).

Record HInv (s : hps) : Prop := {
  HI_t : 0 <= h_t s;
  HI_hp : 0 <= h_hp s;
  HI_eq : h_hp s + (if h_full s then 1 else 0) + (if h_half s then 1 else 0) = h_t s / h;
  HI_one : h_full s = true -> h_half s = true -> False;
  HI_pf : h_full s = true -> Z.odd (h_hp s) = true;
  HI_ph : h_half s = true -> Z.even (h_hp s) = true;
  HI_pc : match h_pc s with
          | INone => True
          | ITest1 lf lh => (lf = true -> h_full s = true) /\ (lh = true -> h_half s = true) /\ h_l s = (lf, lh)
          | IClr1 => flag_of s (first_full k) = true /\
                     (snd (if first_full k then h_l s else (snd (h_l s), fst (h_l s))) = true -> flag_of s sec_full = true)
          | ITest2 lf lh => ((if first_full k then lh else lf) = true -> flag_of s sec_full = true)
          | IClr2 => flag_of s sec_full = true
          end;
  HI_panic : h_panic s = false
}.

Lemma HInv_init t0 : 0 <= t0 < h -> HInv (hps_init t0).
Proof.
  intros Ht. constructor; simpl; try discriminate; try lia; auto.
  rewrite Z.div_small by lia. reflexivity.
Qed.

Lemma tick_div t : 0 <= t ->
  (t + 1) / h = t / h + (if (t + 1) mod h =? 0 then 1 else 0) /\
  ((t + 1) mod 2 ^ B =? 0) = ((t + 1) mod h =? 0) && Z.even ((t + 1) / h) /\
  ((t + 1) mod 2 ^ B =? h) = ((t + 1) mod h =? 0) && Z.odd ((t + 1) / h).
Proof.
  intros Ht. pose proof (half_pos B HB) as Hh. pose proof (pow_split B HB) as Hs.
  rewrite Hs, mod_double by lia.
  pose proof (Z.mod_pos_bound (t + 1) h Hh) as Hb.
  pose proof (Z.div_mod (t + 1) h ltac:(lia)) as Hdm.
  split.
  - pose proof (Z.div_mod t h ltac:(lia)) as Hdm0. pose proof (Z.mod_pos_bound t h Hh) as Hb0.
    destruct (Z.eqb_spec ((t + 1) mod h) 0) as [E|E].
    + set (q0 := t / h) in *. set (q1 := (t + 1) / h) in *.
      assert (Hq : h * (q1 - q0) = t mod h + 1) by lia.
      assert (0 < q1 - q0) by nia. assert (q1 - q0 < 2) by nia. lia.
    + symmetry. apply Z.div_unique with (r := t mod h + 1); [|nia].
      left. split; [lia|]. destruct (Z.eq_dec (t mod h + 1) h) as [E2|E2]; [|lia].
      exfalso. apply E. replace (t + 1) with ((t / h + 1) * h) by nia. apply Z.mod_mul. lia.
  - rewrite <- Z.negb_odd.
    destruct (Z.odd ((t + 1) / h)) eqn:Eo; cbn [negb]; rewrite ?andb_true_r, ?andb_false_r; split;
    apply Bool.eq_iff_eq_true; rewrite ?Z.eqb_eq; split; intros X; try discriminate; lia.
Qed.

Ltac oe := rewrite <- ?Z.negb_odd in *; rewrite ?Z.add_1_r, ?Z.odd_succ in *; rewrite <- ?Z.negb_odd in *.

Lemma HInv_step s l s' : HInv s -> latency_ok B s l -> hps_step B k s l = Some s' -> HInv s'.
Proof.
  intros [H1 H2 H3 H4 H5 H6 H7 H8] HG Hs. pose proof (half_pos B HB) as Hh.
  destruct l; simpl in Hs.
  - injection Hs as <-. destruct (tick_div H1) as (D1 & D2 & D3). rewrite D2, D3. simpl in HG.
    destruct (Z.eqb_spec ((h_t s + 1) mod h) 0) as [E|E]; simpl.
    + destruct (HG E) as [Ef Eh]. rewrite Ef, Eh in *. simpl in *.
      assert (Hp : (h_t s + 1) / h = h_hp s + 1) by lia. rewrite Hp.
      constructor; cbn [h_t h_hp h_full h_half h_pc h_l h_panic]; try lia; auto.
      * rewrite Hp. rewrite <- Z.negb_odd. destruct (Z.odd (h_hp s + 1)); simpl; lia.
      * rewrite <- Z.negb_odd. destruct (Z.odd (h_hp s + 1)); simpl; congruence.
      * oe. destruct (Z.odd (h_hp s)); simpl; congruence.
      * oe. destruct (Z.odd (h_hp s)); simpl; congruence.
      * destruct (h_pc s); unfold flag_of, sec_full in *; cbn [h_full h_half h_l] in *; rewrite ?Ef, ?Eh in *.
        -- exact I.
        -- destruct H7 as (A1 & A2 & A3). split; [intros X; apply A1 in X; discriminate|].
           split; [intros X; apply A2 in X; discriminate|exact A3].
        -- destruct H7 as [X _]. destruct (first_full k); discriminate.
        -- intros X. apply H7 in X. destruct (first_full k); discriminate.
        -- destruct (first_full k); discriminate.
    + rewrite !orb_false_r. constructor; cbn [h_t h_hp h_full h_half h_pc h_l h_panic]; try lia; auto.
  - destruct (h_pc s) eqn:Ep; try discriminate. injection Hs as <-.
    constructor; cbn [h_t h_hp h_full h_half h_pc h_l h_panic]; auto.
  - destruct (h_pc s) as [|lf lh| |lf lh|] eqn:Ep; try discriminate.
    + destruct H7 as (A1 & A2 & A3).
      assert (Hf : (if latching k then if first_full k then lf else lh else flag_of s (first_full k)) = true ->
                   flag_of s (first_full k) = true).
      { unfold flag_of. destruct (latching k), (first_full k); auto. }
      destruct (if latching k then if first_full k then lf else lh else flag_of s (first_full k));
        injection Hs as <-; constructor; cbn [h_t h_hp h_full h_half h_pc h_l h_panic set_ipc]; auto.
      * unfold flag_of, sec_full in *. cbn [h_full h_half h_l set_ipc]. split; [auto|].
        rewrite A3. simpl. destruct (first_full k); simpl; auto.
      * unfold flag_of, sec_full in *. cbn [h_full h_half h_l set_ipc]. destruct (first_full k); simpl; auto.
    + destruct H7 as [F1 F2]. injection Hs as <-. unfold flag_of, sec_full in *.
      unfold count_half.
      destruct (first_full k) eqn:Ek; simpl in F1, F2; rewrite F1 in *.
      * destruct (h_half s) eqn:Eh; [exfalso; auto|].
        constructor; cbn [h_t h_hp h_full h_half h_pc h_l h_panic]; try lia; try discriminate; auto.
        -- rewrite Ek. intros X. exfalso. apply F2 in X. discriminate.
        -- rewrite H8, (H5 eq_refl). reflexivity.
      * destruct (h_full s) eqn:Eh; [exfalso; auto|].
        constructor; cbn [h_t h_hp h_full h_half h_pc h_l h_panic]; try lia; try discriminate; auto.
        -- rewrite Ek. intros X. exfalso. apply F2 in X. discriminate.
        -- rewrite H8, (H6 eq_refl). reflexivity.
    + assert (Hf : (if latching k then if first_full k then lh else lf else flag_of s (negb (first_full k))) = true ->
                   flag_of s (negb (first_full k)) = true).
      { unfold sec_full, flag_of in *. destruct (latching k), (first_full k); auto. }
      destruct (if latching k then if first_full k then lh else lf else flag_of s (negb (first_full k)));
        injection Hs as <-; constructor; cbn [h_t h_hp h_full h_half h_pc h_l h_panic set_ipc]; auto.
    + injection Hs as <-. unfold flag_of, sec_full in *.
      unfold count_half.
      destruct (first_full k) eqn:Ek; simpl in H7; rewrite H7 in *; simpl.
      * destruct (h_full s) eqn:Eh; [exfalso; auto|].
        constructor; cbn [h_t h_hp h_full h_half h_pc h_l h_panic]; try lia; try discriminate; auto.
        rewrite H8, (H6 eq_refl). reflexivity.
      * destruct (h_half s) eqn:Eh; [exfalso; auto|].
        constructor; cbn [h_t h_hp h_full h_half h_pc h_l h_panic]; try lia; try discriminate; auto.
        rewrite H8, (H5 eq_refl). reflexivity.
Qed.

Lemma HInv_reach t0 s : 0 <= t0 < h -> greach (hps_step B k) (latency_ok B) (hps_init t0) s -> HInv s.
Proof.
  intros Ht. apply greach_inv; [now apply HInv_init|]. intros s1 l s2 HI HG Hs. eapply HInv_step; eauto.
Qed.

Lemma half_period_in_step t0 s : 0 <= t0 < h ->
  greach (hps_step B k) (latency_ok B) (hps_init t0) s ->
  h_panic s = false /\ h_hp s <= h_t s / h <= h_hp s + 1.
Proof.
  intros Ht Hr. destruct (HInv_reach Ht Hr) as [H1 H2 H3 H4 H5 H6 H7 H8]. split; [exact H8|].
  destruct (h_full s), (h_half s); lia.
Qed.

Lemma now_always_true W t0 s : 0 <= t0 < h ->
  greach (hps_step B k) (latency_ok B) (hps_init t0) s -> h_t s < 2 ^ W ->
  calculate_now W B (h_hp s) (h_t s mod 2 ^ B) = Some (h_t s).
Proof.
  intros Ht Hr HW. pose proof (half_period_in_step Ht Hr) as [_ Hl].
  destruct (HInv_reach Ht Hr) as [H1 H2 _ _ _ _ _ _]. apply calculate_now_true; auto.
Qed.
End HP.

(** * compare values *)
Lemma next_match_bounds B v t : 0 <= B -> t < next_match B v t <= t + 2 ^ B.
Proof.
  intros HB. unfold next_match. assert (0 < 2 ^ B) by (apply Z.pow_pos_nonneg; lia).
  pose proof (Z.mod_pos_bound (v - (t + 1)) (2 ^ B)). lia.
Qed.

Lemma next_match_shows B v t : 0 <= B -> 0 <= v < 2 ^ B -> next_match B v t mod 2 ^ B = v.
Proof.
  intros HB Hv. unfold next_match. rewrite Z.add_mod_idemp_r by lia.
  replace (t + 1 + (v - (t + 1))) with v by lia. now apply Z.mod_small.
Qed.

Lemma next_match_first B v t u : 0 <= B -> t < u -> u mod 2 ^ B = v -> next_match B v t <= u.
Proof.
  intros HB Hu <-. unfold next_match. assert (0 < 2 ^ B) by (apply Z.pow_pos_nonneg; lia).
  rewrite Zminus_mod_idemp_l. pose proof (Z.mod_le (u - (t + 1)) (2 ^ B)). lia.
Qed.

Lemma wsub_true W T now : 0 <= W -> 0 <= T - now < 2 ^ W ->
  wsub W (T mod 2 ^ W) (now mod 2 ^ W) = T - now.
Proof. intros HW H. unfold wsub. rewrite <- Zminus_mod. now apply Z.mod_small. Qed.

Lemma mod_mod_pow T W B : 0 <= B <= W -> (T mod 2 ^ W) mod 2 ^ B = T mod 2 ^ B.
Proof.
  intros H. replace (2 ^ W) with (2 ^ B * 2 ^ (W - B)) by (rewrite <- Z.pow_add_r by lia; f_equal; lia).
  assert (0 < 2 ^ B) by (apply Z.pow_pos_nonneg; lia).
  assert (0 < 2 ^ (W - B)) by (apply Z.pow_pos_nonneg; lia).
  rewrite Z.rem_mul_r by lia. rewrite Z.add_mod by lia. rewrite Z.mul_comm, Z.mod_mul by lia.
  rewrite Z.add_0_r, !Z.mod_mod by lia. reflexivity.
Qed.

Lemma compare_near_arms W B T now now' :
  0 <= B <= W -> now <= now' -> T - now < 2 ^ W ->
  arm_ok (now' - now) now' T
    (Some (next_match B (compare_near W B (T mod 2 ^ W) (now mod 2 ^ W)) now')) = true.
Proof.
  intros HB Hn HW. unfold arm_ok. destruct (Z.ltb_spec now' T) as [Hlt|]; [|reflexivity].
  pose proof (@next_match_bounds B (compare_near W B (T mod 2 ^ W) (now mod 2 ^ W)) now' ltac:(lia)) as Hb.
  apply andb_true_intro. split; [apply Z.ltb_lt; lia|]. apply Z.leb_le.
  unfold compare_near in *. rewrite wsub_true in * by lia.
  destruct (Z.leb_spec (T - now) (2 ^ B - 1)).
  - rewrite mod_mod_pow in * by lia.
    pose proof (@next_match_first B (T mod 2 ^ B) now' T ltac:(lia) Hlt eq_refl). lia.
  - lia.
Qed.

Lemma compare_trunc_arms W B T now' :
  0 <= B <= W -> arm_ok 0 now' T (Some (next_match B (compare_trunc B (T mod 2 ^ W)) now')) = true.
Proof.
  intros HB. unfold arm_ok. destruct (Z.ltb_spec now' T) as [Hlt|]; [|reflexivity].
  unfold compare_trunc. rewrite mod_mod_pow by lia.
  pose proof (@next_match_bounds B (T mod 2 ^ B) now' ltac:(lia)) as Hb.
  pose proof (@next_match_first B (T mod 2 ^ B) now' T ltac:(lia) Hlt eq_refl).
  apply andb_true_intro. split; [apply Z.ltb_lt; lia|]. apply Z.leb_le. lia.
Qed.

Lemma compare_rtc_arms W B T now :
  2 <= B <= W -> T - now < 2 ^ W ->
  let c := next_match B (compare_rtc W B (T mod 2 ^ W) (now mod 2 ^ W)) now in
  arm_ok 2 now T (Some c) = true /\ (now < T -> T - now < 2 ^ B -> now + 3 <= c).
Proof.
  intros HB HW c. assert (Hp : 0 < 2 ^ B) by (apply Z.pow_pos_nonneg; lia).
  assert (Hp4 : 4 <= 2 ^ B) by (change 4 with (2 ^ 2); apply Z.pow_le_mono_r; lia).
  unfold arm_ok.
  destruct (Z.ltb_spec now T) as [Hlt|]; [|split; [reflexivity|lia]].
  assert (Hc : now < c <= T + 2 /\ (T - now < 2 ^ B -> now + 3 <= c)).
  { subst c. unfold compare_rtc in *. rewrite wsub_true in * by lia.
    destruct (Z.leb_spec (T - now) (2 ^ B - 1)).
    - destruct (Z.ltb_spec (T - now) 3).
      + assert (E : wadd W (now mod 2 ^ W) 3 mod 2 ^ B = (now + 3) mod 2 ^ B).
        { unfold wadd. rewrite mod_mod_pow by lia. rewrite Z.add_mod, mod_mod_pow, <- Z.add_mod by lia. reflexivity. }
        rewrite E. unfold next_match. rewrite Zminus_mod_idemp_l.
        replace (now + 3 - (now + 1)) with 2 by lia. rewrite Z.mod_small by lia. lia.
      + rewrite mod_mod_pow by lia. unfold next_match. rewrite Zminus_mod_idemp_l.
        rewrite Z.mod_small by lia. lia.
    - pose proof (@next_match_bounds B 0 now ltac:(lia)). lia. }
  split; [|intros _; apply Hc]. apply andb_true_intro. split; [apply Z.ltb_lt; lia|apply Z.leb_le; lia].
Qed.

(** * rp2040 *)
Lemma lor_hi_lo a b : 0 <= b < 2 ^ 32 -> Z.lor (Z.shiftl a 32) b = a * 2 ^ 32 + b.
Proof.
  intros Hb. rewrite <- Z.shiftl_mul_pow2 by lia. symmetry.
  rewrite <- Z.lxor_lor, <- Z.add_nocarry_lxor; try reflexivity;
  apply Z.bits_inj'; intros n Hn; rewrite Z.land_spec, Z.bits_0;
  (destruct (Z.ltb_spec n 32);
   [rewrite Z.shiftl_spec_low by lia; reflexivity|
    rewrite (@testbit_high b n 32) by lia; apply andb_false_r]).
Qed.

Lemma hi_lo t : 0 <= t < 2 ^ 64 -> hi32 t * 2 ^ 32 + lo32 t = t.
Proof.
  intros Ht. unfold hi32, lo32. pose proof (Z.div_mod t (2 ^ 32) ltac:(lia)).
  rewrite Z.mod_small; [lia|]. split; [apply Z.div_pos; lia|]. apply Z.div_lt_upper_bound; lia.
Qed.

Lemma hi_mono a b : 0 <= a -> a <= b -> b < 2 ^ 64 -> hi32 a <= hi32 b.
Proof.
  intros Ha Hab Hb. unfold hi32. rewrite !Z.mod_small.
  - apply Z.div_le_mono; lia.
  - split; [apply Z.div_pos; lia|]. apply Z.div_lt_upper_bound; lia.
  - split; [apply Z.div_pos; lia|]. apply Z.div_lt_upper_bound; lia.
Qed.

Arguments Z.lor : simpl never.
Arguments Z.shiftl : simpl never.
Lemma rp_loop_true fuel : forall time k hi0 r,
  (forall i j, (i <= j)%nat -> time i <= time j) -> (forall i, 0 <= time i < 2 ^ 64) -> (1 <= k)%nat ->
  hi0 = hi32 (time (Nat.pred k)) ->
  rp_loop fuel time k hi0 = Some r -> exists j, (k <= j)%nat /\ r = time j /\ (j < k + 2 * fuel)%nat.
Proof.
  induction fuel as [|fuel IH]; intros time k hi0 r Hm Hb Hk Hhi Hr; cbn [rp_loop] in Hr; [discriminate|].
  destruct (Z.eqb_spec hi0 (hi32 (time (S k)))) as [E|E].
  - injection Hr as <-. exists k. split; [lia|]. split; [|lia].
    assert (hi32 (time k) = hi0).
    { pose proof (@hi_mono (time (Nat.pred k)) (time k)). pose proof (@hi_mono (time k) (time (S k))).
      pose proof (Hb k). pose proof (Hb (S k)). pose proof (Hb (Nat.pred k)).
      pose proof (Hm (Nat.pred k) k ltac:(lia)). pose proof (Hm k (S k) ltac:(lia)). lia. }
    change (Z.lor (Z.shiftl hi0 32) (lo32 (time k)) = time k).
    rewrite lor_hi_lo by (apply Z.mod_pos_bound; lia).
    rewrite <- H. now apply hi_lo.
  - apply IH in Hr; auto; try lia. destruct Hr as (j & ? & ? & ?). exists j. split; [lia|]. split; [auto|lia].
Qed.

Lemma rp_now_true fuel time r :
  (forall i j, (i <= j)%nat -> time i <= time j) -> (forall i, 0 <= time i < 2 ^ 64) ->
  rp_now fuel time = Some r -> exists j, (1 <= j <= 2 * fuel)%nat /\ r = time j.
Proof.
  intros Hm Hb Hr. apply rp_loop_true in Hr; auto. destruct Hr as (j & ? & ? & ?). exists j. split; [lia|auto].
Qed.

Lemma rp_now_terminates time :
  (forall i j, (i <= j)%nat -> time i <= time j) -> (forall i, 0 <= time i < 2 ^ 64) ->
  time 4%nat - time 0%nat < 2 ^ 32 -> exists r, rp_now 2 time = Some r.
Proof.
  intros Hm Hb Ht. unfold rp_now. cbn [rp_loop].
  destruct (Z.eqb_spec (hi32 (time 0%nat)) (hi32 (time 2%nat))) as [|E1]; [eauto|].
  destruct (Z.eqb_spec (hi32 (time 2%nat)) (hi32 (time 4%nat))) as [|E2]; [eauto|]. exfalso.
  pose proof (@hi_mono (time 0%nat) (time 2%nat) ltac:(apply Hb) ltac:(apply Hm; lia) ltac:(apply Hb)).
  pose proof (@hi_mono (time 2%nat) (time 4%nat) ltac:(apply Hb) ltac:(apply Hm; lia) ltac:(apply Hb)).
  pose proof (hi_lo (Hb 0%nat)). pose proof (hi_lo (Hb 4%nat)).
  assert (0 <= lo32 (time 0%nat) < 2 ^ 32) by (apply Z.mod_pos_bound; lia).
  assert (0 <= lo32 (time 4%nat) < 2 ^ 32) by (apply Z.mod_pos_bound; lia). lia.
Qed.

(** * systick *)
Section Sys.
Context (w : Z) (Hw : 0 <= w).

Record SInv (s : sys) (m : Z) : Prop := {
  SI_eq : s_wraps s = m + Z.of_nat (length (s_adds s)) + (if s_flag s then 1 else 0);
  SI_cnt : s_cnt s = m mod 2 ^ w;
  SI_nd : NoDup (s_adds s);
  SI_in : forall c, In c (s_adds s) <-> exists b, s_pc s c = SAdd b;
  SI_m : 0 <= m
}.

Lemma SInv_init : SInv sys_init 0.
Proof.
  constructor; simpl; auto; try lia.
  - constructor.
  - intros c. split; [tauto|intros [b H]; discriminate].
Qed.

Lemma length_remove c l : NoDup l -> In c l -> S (length (remove Nat.eq_dec c l)) = length l.
Proof.
  induction l as [|x l IH]; simpl; [tauto|]. intros Hnd Hin. inversion Hnd; subst.
  destruct (Nat.eq_dec c x) as [->|Hne].
  - now rewrite notin_remove.
  - simpl. destruct Hin as [->|Hin]; [congruence|]. rewrite IH; auto.
Qed.

Lemma NoDup_remove_eq c l : NoDup l -> NoDup (remove Nat.eq_dec c l).
Proof.
  induction l as [|x l IH]; simpl; intros H; [constructor|]. inversion H; subst.
  destruct (Nat.eq_dec c x); [auto|]. constructor; [|auto]. intros Hin. apply in_remove in Hin. tauto.
Qed.

(** the true count behind the counter is unchanged, except that an add increases it by one *)
Lemma SInv_step s m l s' : SInv s m -> sys_guard s l -> sys_step w s l = Some s' ->
  SInv s' (match l with SAddL _ => m + 1 | _ => m end).
Proof.
  intros [H1 H2 H3 H4 H5] HG Hs. destruct l as [|c b|c|c]; simpl in Hs.
  - injection Hs as <-. simpl in HG. rewrite HG in H1. constructor; cbn [s_wraps s_adds s_flag s_cnt s_pc]; auto; lia.
  - destruct (s_pc s c) eqn:Ep; try discriminate. destruct (s_flag s); injection Hs as <-;
      constructor; cbn [s_wraps s_adds s_flag s_cnt s_pc]; auto.
    + cbn [length]. lia.
    + constructor; [|auto]. intros Hin. apply H4 in Hin as [b' Hb]. congruence.
    + intros c'. unfold upd. destruct (Nat.eqb_spec c' c) as [->|Hne]; simpl.
      * split; eauto.
      * rewrite <- H4. split; [intros [->|?]; [congruence|auto]|auto].
    + intros c'. unfold upd. destruct (Nat.eqb_spec c' c) as [->|Hne]; simpl; [|apply H4].
      rewrite H4, Ep. split; [intros [b' Hb]; discriminate|intros [b' Hb]; destruct b; discriminate].
  - destruct (s_pc s c) as [|b|] eqn:Ep; try discriminate. injection Hs as <-.
    assert (Hin : In c (s_adds s)) by (apply H4; eauto).
    pose proof (@length_remove c _ H3 Hin) as Hl.
    constructor; cbn [s_wraps s_adds s_flag s_cnt s_pc]; try lia.
    + unfold wadd. rewrite H2. rewrite Z.add_mod_idemp_l; [reflexivity|]. apply Z.pow_nonzero; lia.
    + now apply NoDup_remove_eq.
    + intros c'. unfold upd. destruct (Nat.eqb_spec c' c) as [->|Hne].
      * split; [intros X; now apply remove_In in X|intros [b' Hb]; destruct b; discriminate].
      * rewrite <- H4. split; [intros X; apply in_remove in X; tauto|intros X; now apply in_in_remove].
  - destruct (s_pc s c) as [|b|] eqn:Ep; try discriminate. injection Hs as <-.
    constructor; cbn [s_wraps s_adds s_flag s_cnt s_pc]; auto.
    intros c'. unfold upd. destruct (Nat.eqb_spec c' c) as [->|Hne]; [|apply H4].
    rewrite H4, Ep. split; intros [b' Hb]; discriminate.
Qed.

(** history: the values returned are a non-decreasing sequence of true counts, none ahead of time *)
Definition SHist (s : sys) (m : Z) : Prop :=
  exists ms, map fst (s_ret s) = map (fun x => x mod 2 ^ w) ms /\
    Forall2 (fun x r => x <= snd r) ms (s_ret s) /\ StronglySorted Z.le ms /\ Forall (fun x => x <= m) ms.

Lemma sorted_snoc ms m : StronglySorted Z.le ms -> Forall (fun x => x <= m) ms -> StronglySorted Z.le (ms ++ [m]).
Proof.
  induction 1 as [|x l Hs IH Hx]; simpl; intros HF.
  - repeat constructor.
  - inversion HF; subst. constructor; [auto|]. apply Forall_app. split; [exact Hx|]. constructor; [assumption|constructor].
Qed.

Definition SAll (s : sys) : Prop := exists m, SInv s m /\ SHist s m.

Lemma SAll_step s l s' : SAll s -> sys_guard s l -> sys_step w s l = Some s' -> SAll s'.
Proof.
  intros (m & HI & ms & E1 & E2 & E3 & E4) HG Hs. pose proof (SInv_step l HI HG Hs) as HI'.
  eexists. split; [exact HI'|].
  destruct l as [|c b|c|c]; simpl in Hs.
  - injection Hs as <-. exists ms. auto.
  - destruct (s_pc s c); try discriminate. destruct (s_flag s); injection Hs as <-; exists ms; auto.
  - destruct (s_pc s c); try discriminate. injection Hs as <-. exists ms. repeat split; auto.
    eapply Forall_impl; [|exact E4]. simpl. intros; lia.
  - destruct (s_pc s c); try discriminate. injection Hs as <-. exists (ms ++ [m]). simpl.
    destruct HI as [J1 J2 _ _ _]. split; [|split; [|split]].
    + rewrite !map_app, E1. simpl. now rewrite J2.
    + apply Forall2_app; [exact E2|]. constructor; [|constructor]. simpl. destruct (s_flag s); lia.
    + now apply sorted_snoc.
    + apply Forall_app. split; [exact E4|]. constructor; [lia|constructor].
Qed.

Lemma SAll_reach s : greach (sys_step w) sys_guard sys_init s -> SAll s.
Proof.
  apply greach_inv; [|intros; eapply SAll_step; eauto].
  exists 0. split; [apply SInv_init|]. exists []. repeat split; constructor.
Qed.

Lemma systick_monotone s : greach (sys_step w) sys_guard sys_init s ->
  exists ms, map fst (s_ret s) = map (fun x => x mod 2 ^ w) ms /\
    Forall2 (fun x r => x <= snd r) ms (s_ret s) /\ StronglySorted Z.le ms.
Proof. intros H. destruct (SAll_reach H) as (m & _ & ms & ? & ? & ? & _). eauto. Qed.

(** every wrap is accounted for exactly once: in the counter, in the flag, or in a context about to add *)
Lemma systick_no_tick_lost s : greach (sys_step w) sys_guard sys_init s ->
  s_cnt s = (s_wraps s - Z.of_nat (length (s_adds s)) - (if s_flag s then 1 else 0)) mod 2 ^ w /\
  NoDup (s_adds s) /\ (forall c, In c (s_adds s) <-> exists b, s_pc s c = SAdd b).
Proof.
  intros H. destruct (SAll_reach H) as (m & [J1 J2 J3 J4 J5] & _). split; [|auto]. rewrite J2. f_equal. lia.
Qed.

(** in particular an undisturbed [now] returns the exact count *)
Lemma systick_exact s : greach (sys_step w) sys_guard sys_init s ->
  (forall c b, s_pc s c <> SAdd b) -> s_flag s = false -> s_cnt s = s_wraps s mod 2 ^ w.
Proof.
  intros H Hn Hf. destruct (systick_no_tick_lost H) as (E & _ & Hin). rewrite Hf in E.
  destruct (s_adds s) as [|c l]; [rewrite E; f_equal; simpl; lia|].
  exfalso. destruct (proj1 (Hin c)) as [b Hb]; [now left|]. now elim (Hn c b).
Qed.
End Sys.

(** * esp32 *)
Definition EInv (s : esp) : Prop :=
  0 <= e_t s /\
  (forall c, e_pc s c = ELatched -> e_latch s = e_begin s c /\ 0 <= e_begin s c <= e_t s) /\
  (forall c lo, e_pc s c = ELo lo -> e_latch s = e_begin s c /\ lo = lo32 (e_latch s) /\ 0 <= e_begin s c <= e_t s) /\
  (forall c v, e_pc s c = EDone v -> e_begin s c < 2 ^ 64 -> v = e_begin s c /\ 0 <= v <= e_t s).

Lemma EInv_step s l s' : EInv s -> esp_alone s l -> esp_step s l = Some s' -> EInv s'.
Proof.
  intros (H0 & H1 & H2 & H3) HG Hs. destruct l as [d|c|c|c]; simpl in Hs.
  - destruct (Z.leb_spec 0 d); [|discriminate]. injection Hs as <-. split; [simpl; lia|]. simpl. split; [|split].
    + intros c Hc. destruct (H1 c Hc). lia.
    + intros c lo Hc. destruct (H2 c lo Hc) as (? & ? & ?). repeat split; auto; lia.
    + intros c v Hc Hb. destruct (H3 c v Hc Hb). lia.
  - destruct (e_pc s c) eqn:Ep; try discriminate. injection Hs as <-. split; [exact H0|]. simpl in *.
    unfold upd. split; [|split].
    + intros c'. destruct (Nat.eqb_spec c' c); [intros _; lia|]. intros X. now elim (proj1 (HG c')).
    + intros c' lo. destruct (Nat.eqb_spec c' c); [discriminate|]. intros X. now elim (proj2 (HG c') lo).
    + intros c' v. destruct (Nat.eqb_spec c' c); [discriminate|]. apply H3.
  - destruct (e_pc s c) eqn:Ep; try discriminate. injection Hs as <-. split; [exact H0|]. simpl.
    unfold upd. split; [|split].
    + intros c'. destruct (Nat.eqb_spec c' c); [discriminate|]. apply H1.
    + intros c' lo. destruct (Nat.eqb_spec c' c) as [->|]; [|apply H2].
      intros [= <-]. destruct (H1 c Ep). auto.
    + intros c' v. destruct (Nat.eqb_spec c' c); [discriminate|]. apply H3.
  - destruct (e_pc s c) as [| |lo|] eqn:Ep; try discriminate. injection Hs as <-. split; [exact H0|]. simpl.
    unfold upd. split; [|split].
    + intros c'. destruct (Nat.eqb_spec c' c); [discriminate|]. apply H1.
    + intros c' lo'. destruct (Nat.eqb_spec c' c); [discriminate|]. apply H2.
    + intros c' v. destruct (Nat.eqb_spec c' c) as [->|]; [|apply H3].
      intros [= <-] Hb. destruct (H2 c lo Ep) as (E1 & -> & E2). rewrite Z.lor_comm.
      rewrite lor_hi_lo by (apply Z.mod_pos_bound; lia). rewrite hi_lo by lia. lia.
Qed.

Lemma esp_now_true t0 s c v : 0 <= t0 ->
  greach esp_step esp_alone (esp_init t0) s -> e_pc s c = EDone v -> e_begin s c < 2 ^ 64 ->
  v = e_begin s c /\ 0 <= v <= e_t s.
Proof.
  intros Ht Hr. apply greach_inv with (P := EInv) in Hr.
  - apply Hr.
  - split; [exact Ht|]. simpl. repeat split; discriminate.
  - intros s1 l s2 HI HG Hs. eapply EInv_step; eauto.
Qed.

Lemma esp_torn :
  exists s v, run esp_step (esp_init (2 ^ 32 - 1))
      [EUpdate 0; EReadLo 0; ETick 1; EUpdate 1; EReadLo 1; EReadHi 1; EReadHi 0] = Some s /\
    e_pc s 0%nat = EDone v /\ v = e_t s + (2 ^ 32 - 1).
Proof. do 2 eexists. repeat split. Qed.

(** * letimer *)
Lemma letimer_now_current hp t : 0 <= t < 2 ^ 63 -> hp = t / 2 ^ 23 ->
  letimer_now hp t = Some (if t mod 2 ^ 24 =? 2 ^ 24 - 1 then t + 1 else t).
Proof.
  intros Ht Hhp. unfold letimer_now, letimer_value.
  pose proof (Z.mod_pos_bound t (2 ^ 24) ltac:(lia)) as Hb.
  assert (Hhp0 : 0 <= hp) by (subst; apply Z.div_pos; lia).
  destruct (Z.eqb_spec (2 ^ 24 - 1 - t mod 2 ^ 24) 0); destruct (Z.eqb_spec (t mod 2 ^ 24) (2 ^ 24 - 1)); try lia.
  - rewrite <- (@calculate_now_true 64 24 hp (t + 1)); try lia.
    + f_equal. pose proof (Z.div_mod t (2 ^ 24) ltac:(lia)).
      symmetry. replace (t + 1) with ((t / 2 ^ 24 + 1) * 2 ^ 24) by lia. apply Z.mod_mul. lia.
    + change (2 ^ (24 - 1)) with (2 ^ 23). pose proof (Z.div_mod t (2 ^ 24) ltac:(lia)).
      pose proof (Z.div_mod t (2 ^ 23) ltac:(lia)). pose proof (Z.mod_pos_bound t (2 ^ 23) ltac:(lia)).
      assert ((t + 1) / 2 ^ 23 = 2 * (t / 2 ^ 24 + 1)) by (symmetry; apply Z.div_unique with (r := 0); lia). lia.
  - replace (2 ^ 24 - 1 - (2 ^ 24 - 1 - t mod 2 ^ 24)) with (t mod 2 ^ 24) by lia.
    apply calculate_now_true; try lia; change (2 ^ (24 - 1)) with (2 ^ 23); lia.
Qed.

Lemma letimer_now_lagging hp t : 0 <= hp -> 0 <= t < 2 ^ 63 -> hp + 1 = t / 2 ^ 23 -> t mod 2 ^ 24 <> 2 ^ 24 - 1 ->
  letimer_now hp t = Some t.
Proof.
  intros Hh Ht Hhp Hne. unfold letimer_now, letimer_value.
  pose proof (Z.mod_pos_bound t (2 ^ 24) ltac:(lia)) as Hb.
  destruct (Z.eqb_spec (2 ^ 24 - 1 - t mod 2 ^ 24) 0); [lia|].
  replace (2 ^ 24 - 1 - (2 ^ 24 - 1 - t mod 2 ^ 24)) with (t mod 2 ^ 24) by lia.
  apply calculate_now_true; try lia; change (2 ^ (24 - 1)) with (2 ^ 23); lia.
Qed.

(** so the reported time never goes back while the counter is current *)
Lemma letimer_monotone t1 t2 r1 r2 : 0 <= t1 <= t2 -> t2 < 2 ^ 63 ->
  letimer_now (t1 / 2 ^ 23) t1 = Some r1 -> letimer_now (t2 / 2 ^ 23) t2 = Some r2 -> r1 <= r2.
Proof.
  intros H1 H2. rewrite !letimer_now_current by lia. intros E1 E2. apply (f_equal (fun o => match o with Some x => x | None => 0 end)) in E1, E2.
  cbv beta iota in E1, E2. subst r1 r2.
  destruct (Z.eqb_spec (t1 mod 2 ^ 24) (2 ^ 24 - 1)), (Z.eqb_spec (t2 mod 2 ^ 24) (2 ^ 24 - 1)); try lia.
  destruct (Z.eq_dec t1 t2); [subst; lia|lia].
Qed.

(** but a delay can end up to one tick early when it ends on the last tick of a period *)
Lemma letimer_delay_early :
  exists P r0 r1 d n0 n1, 0 < P /\ r0 <= r1 /\ 0 <= d /\
    letimer_now ((r0 / P) / 2 ^ 23) (r0 / P) = Some n0 /\
    letimer_now ((r1 / P) / 2 ^ 23) (r1 / P) = Some n1 /\
    delay_ready 64 n1 (delay_deadline 64 n0 d) = true /\ r1 - r0 < d * P.
Proof.
  exists 10, ((2 ^ 24 - 2) * 10 + 9), ((2 ^ 24 - 1) * 10), 1, (2 ^ 24 - 2), (2 ^ 24).
  repeat split; try lia; vm_compute; reflexivity.
Qed.

Lemma letimer_compare_arms T now rnow now' :
  0 <= rnow -> now <= rnow <= now + 1 -> now <= now' ->
  arm_ok (now' - now) now' T (Some (letimer_match (letimer_compare T rnow) now')) = true.
Proof.
  intros H0 Hr Hn. unfold arm_ok. destruct (Z.ltb_spec now' T) as [Hlt|]; [|reflexivity].
  unfold letimer_match, letimer_compare.
  destruct (Z.leb_spec (Z.max 0 (T - rnow)) (2 ^ 24 - 1)).
  - replace (2 ^ 24 - 1 - (2 ^ 24 - 1 - T mod 2 ^ 24)) with (T mod 2 ^ 24) by lia.
    pose proof (@next_match_bounds 24 (T mod 2 ^ 24) now' ltac:(lia)).
    pose proof (@next_match_first 24 (T mod 2 ^ 24) now' T ltac:(lia) Hlt eq_refl).
    apply andb_true_intro. split; [apply Z.ltb_lt; lia|apply Z.leb_le; lia].
  - replace (2 ^ 24 - 1 - (2 ^ 24 - 1)) with 0 by lia.
    pose proof (@next_match_bounds 24 0 now' ltac:(lia)).
    apply andb_true_intro. split; [apply Z.ltb_lt; lia|apply Z.leb_le; lia].
Qed.

(** * blocking delay *)
Lemma at_least_ge num den x : 0 < den -> x * num <= at_least num den x * den.
Proof. intros Hd. unfold at_least. pose proof (Z.mul_div_le (- (x * num)) den Hd). lia. Qed.

Lemma hal_spin_stop fuel : forall w done times k j,
  hal_spin fuel w done times k = Some j -> (k <= j)%nat /\ tick_lt w (times j mod 2 ^ w) done = false.
Proof.
  induction fuel as [|fuel IH]; intros w done times k j H; cbn [hal_spin] in H; [discriminate|].
  destruct (tick_lt w (times k mod 2 ^ w) done) eqn:E.
  - apply IH in H. split; [lia|tauto].
  - injection H as <-. auto.
Qed.

(** [real k] is the real time (in request units) of the k-th clock read of the loop, [r0] that of the
    first read; the counter runs at num/den ticks per unit. *)
Lemma hal_delay_long_enough w num den x r0 real fuel j :
  1 <= w -> 0 < num -> 0 < den -> 0 <= x -> at_least num den x + 1 <= 2 ^ (w - 1) ->
  (forall k, r0 <= real k) ->
  let cnt r := r * num / den in
  hal_spin fuel w (hal_done w (cnt r0 mod 2 ^ w) (at_least num den x)) (fun k => cnt (real k)) 0 = Some j ->
  x <= real j - r0.
Proof.
  intros Hw Hn Hd Hx Hdw Hr cnt H. apply hal_spin_stop in H as [_ H]. cbv beta in H.
  pose proof (half_pos w Hw) as Hh. pose proof (pow_split w Hw) as Hs.
  pose proof (@at_least_ge num den x Hd) as Hge. set (d := at_least num den x) in *.
  assert (Hd0 : 0 <= d) by nia.
  change (hal_done w (cnt r0 mod 2 ^ w) d) with (delay_deadline w (cnt r0 mod 2 ^ w) d) in H.
  rewrite delay_deadline_true in H by lia.
  specialize (Hr j).
  assert (Hm : cnt r0 <= cnt (real j)) by (apply Z.div_le_mono; nia).
  destruct (Z.eqb_spec d 0) as [Ed|Ed]; [nia|].
  destruct (Z.le_gt_cases (cnt r0 + d + 1) (cnt (real j))) as [Hle|Hgt].
  - subst cnt. cbv beta in Hle.
    pose proof (Z.mul_div_le (real j * num) den Hd). pose proof (Z.mul_succ_div_gt (r0 * num) den Hd).
    assert (d * den < (real j - r0) * num) by nia. nia.
  - exfalso. rewrite tick_lt_window in H by lia. lia.
Qed.
