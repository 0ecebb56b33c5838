(** C93: SysTick counts from its start.  [clocks ls]: clocks passed in a run; [in_time]: every wrap is counted (by the handler or
    by [now]) before the next one. *)
From Verif Require Import Base LTS SystickModel.
Open Scope Z_scope.
Set Implicit Arguments.

Definition clocks (ls : list ylabel) : Z := Z.of_nat (length (filter (fun l => match l with YClock => true | _ => false end) ls)).
Definition in_time (s : syst) (l : ylabel) : Prop := l = YClock -> y_cvr s = 1 -> y_flag s = false.
Definition found (w : Z) (s : syst) : Prop := 0 < w /\ 0 <= y_cvr s < 2 ^ 24 /\ 0 <= y_cnt s < 2 ^ w.

(** clocks to the next wrap *)
Definition to_wrap (P : Z) (s : syst) : Z := if y_cvr s =? 0 then P else y_cvr s.
Record going (w P c0 n0 k : Z) (n : Z) (s : syst) : Prop := mkGo {
  g_en : y_en s = true; g_ie : y_ie s = true; g_rvr : y_rvr s = P - 1; g_cvr : 0 <= y_cvr s;
  g_n : 0 <= n; g_cnt : 0 <= y_cnt s < 2 ^ w;
  g_now : systick_now w s = (n0 + n) mod 2 ^ w;
  g_k : k = c0 + n * P - to_wrap P s;
  g_rem : 0 < n -> to_wrap P s <= P
}.
Lemma started w clk hz s s0 : found w s -> 0 <= clk -> 0 <= hz -> systick_start clk hz s = Some s0 ->
  2 <= clk / hz <= 2 ^ 24 /\ clk = hz * (clk / hz) /\ y_cvr s0 = y_cvr s /\ going w (clk / hz) (to_wrap (clk / hz) s) (y_cnt s) 0 0 s0.
Proof.
  intros (W & C & N) Hc Hz. unfold systick_start. destruct (Z.eqb_spec hz 0) as [|Z0]; [discriminate|].
  destruct (Z.eqb_spec (clk mod hz) 0) as [M|]; [|discriminate]. cbn [negb].
  destruct (Z.leb_spec (clk / hz - 1) 16777215) as [L|]; [|discriminate]. destruct (Z.ltb_spec 0 (clk / hz - 1)) as [G|]; [|discriminate]. cbn [negb].
  intros E. injection E as <-. change (2 ^ 24) with 16777216 in *. split; [lia|]. split; [now apply Z_div_exact_full_2|]. split; [reflexivity|].
  constructor; cbn [set_reload csr_modify y_en y_ie y_flag y_cvr y_rvr y_cnt]; auto; try lia.
  - change (2 ^ 24) with 16777216. rewrite Z.mod_small; lia.
  - unfold systick_now, count. cbn [set_reload csr_modify y_flag y_cnt]. rewrite Z.add_0_r. symmetry. now apply Z.mod_small.
  - unfold to_wrap. cbn. lia.
Qed.
Lemma goes w P c0 n0 k n s l s' : 0 < w -> 2 <= P -> going w P c0 n0 k n s -> in_time s l -> ystep w s l = Some s' ->
  exists n', going w P c0 n0 (k + match l with YClock => 1 | _ => 0 end) n' s'.
Proof.
  intros W HP [] T E. assert (B : 0 < 2 ^ w) by (apply Z.pow_pos_nonneg; lia). injection E as <-. destruct l.
  - unfold clock. rewrite g_en0. unfold to_wrap in *. destruct (Z.eqb_spec (y_cvr s) 0) as [Z0|Z0].
    + exists n. constructor; cbn [y_en y_ie y_flag y_cvr y_rvr y_cnt]; auto; try lia; unfold to_wrap; cbn [y_cvr]; rewrite g_rvr0;
        (destruct (Z.eqb_spec (P - 1) 0); [lia|]); lia.
    + destruct (Z.eqb_spec (y_cvr s) 1) as [O|O].
      * exists (n + 1). specialize (T eq_refl O). constructor; cbn [y_en y_ie y_flag y_cvr y_rvr y_cnt]; auto; try lia; unfold to_wrap; cbn [y_cvr]; rewrite ?O; change (1 - 1 =? 0) with true; cbv iota; try lia.
        unfold systick_now, count in *. rewrite T in *. cbn [orb y_flag y_cnt] in *. rewrite g_now0. rewrite Z.add_mod_idemp_l by lia. f_equal. lia.
      * exists n. constructor; cbn [y_en y_ie y_flag y_cvr y_rvr y_cnt]; auto; try lia; unfold to_wrap; cbn [y_cvr].
        -- rewrite <- g_now0. unfold systick_now, count. cbn [y_flag y_cnt]. now rewrite orb_false_r.
        -- destruct (Z.eqb_spec (y_cvr s - 1) 0); lia.
        -- destruct (Z.eqb_spec (y_cvr s - 1) 0); lia.
  - exists n. rewrite Z.add_0_r. constructor; cbn; auto. destruct (y_flag s); [apply Z.mod_pos_bound; lia|auto].
Qed.
Lemma goes_on w P c0 n0 ls : 0 < w -> 2 <= P -> forall k n s s', going w P c0 n0 k n s -> guarded (ystep w) in_time s ls -> run (ystep w) s ls = Some s' ->
  exists n', going w P c0 n0 (k + clocks ls) n' s'.
Proof.
  intros W HP. induction ls as [|l ls IH]; intros k n s s' G Gd R.
  - injection R as <-. exists n. unfold clocks. simpl. now rewrite Z.add_0_r.
  - cbn [guarded run] in Gd, R. destruct Gd as [T Gd]. destruct (ystep w s l) as [s1|] eqn:E; [|discriminate].
    destruct (goes W HP G T E) as (n1 & G1). destruct (IH _ _ _ _ G1 Gd R) as (n2 & G2). exists n2.
    replace (k + clocks (l :: ls)) with (k + match l with YClock => 1 | _ => 0 end + clocks ls); [exact G2|].
    unfold clocks. cbn [filter]. destruct l; cbn [length]; lia.
Qed.

(** The counter found at 0: the interrupt is on, and [now] has grown by the number of whole periods of the declared rate passed since the start. *)
Theorem C93_counts_from_start_partial w clk hz s s0 ls s1 : found w s -> y_cvr s = 0 -> 0 <= clk -> 0 <= hz -> systick_start clk hz s = Some s0 ->
  guarded (ystep w) in_time s0 ls -> run (ystep w) s0 ls = Some s1 ->
  y_ie s1 = true /\ systick_now w s1 = (y_cnt s + clocks ls * hz / clk) mod 2 ^ w.
Proof.
  intros F C Hc Hz St Gd R. destruct (started F Hc Hz St) as (P & M & _ & G). pose proof F as (W & _).
  destruct (@goes_on w (clk / hz) _ _ ls W (proj1 P) _ _ _ _ G Gd R) as (n & []). split; [exact g_ie0|]. rewrite g_now0. f_equal. f_equal.
  assert (hz <> 0). { intros ->. rewrite Zdiv_0_r in P. lia. }
  set (q := clk / hz) in *. rewrite M, (Z.mul_comm hz q), Z.div_mul_cancel_r by lia. apply Z.div_unique with (q - to_wrap q s1).
  - left. assert (1 <= to_wrap q s1) by (unfold to_wrap; destruct (Z.eqb_spec (y_cvr s1) 0); lia). assert (to_wrap q s1 <= q); [|lia].
    destruct (Z.eq_dec n 0) as [->|]; [|apply g_rem0; lia]. unfold to_wrap in g_k0 at 1. rewrite C in g_k0. cbn [Z.eqb] in g_k0. unfold clocks in g_k0. lia.
  - unfold to_wrap in g_k0 at 1. rewrite C in g_k0. cbn [Z.eqb] in g_k0. lia.
Qed.
(** Found below a period, it is at most one tick ahead. *)
Theorem C93_at_most_one_ahead w clk hz s s0 ls s1 : found w s -> y_cvr s <= clk / hz -> 0 <= clk -> 0 <= hz -> systick_start clk hz s = Some s0 ->
  guarded (ystep w) in_time s0 ls -> run (ystep w) s0 ls = Some s1 ->
  exists n, clocks ls * hz / clk <= n <= clocks ls * hz / clk + 1 /\ systick_now w s1 = (y_cnt s + n) mod 2 ^ w.
Proof.
  intros F C Hc Hz St Gd R. destruct (started F Hc Hz St) as (P & M & _ & G). pose proof F as (W & Cv & _).
  destruct (@goes_on w (clk / hz) _ _ ls W (proj1 P) _ _ _ _ G Gd R) as (n & []). exists n. split; [|exact g_now0].
  assert (hz <> 0). { intros ->. rewrite Zdiv_0_r in P. lia. }
  set (q := clk / hz) in *. rewrite M, (Z.mul_comm hz q), Z.div_mul_cancel_r by lia.
  assert (A : 1 <= to_wrap q s <= q) by (unfold to_wrap; destruct (Z.eqb_spec (y_cvr s) 0); lia).
  assert (1 <= to_wrap q s1) by (unfold to_wrap; destruct (Z.eqb_spec (y_cvr s1) 0); lia).
  assert (to_wrap q s1 <= q). { destruct (Z.eq_dec n 0) as [->|]; [unfold clocks in g_k0; lia|apply g_rem0; lia]. }
  split.
  - assert (clocks ls / q < n + 1); [|lia]. apply Z.div_lt_upper_bound; nia.
  - assert (n - 1 <= clocks ls / q); [|lia]. apply Z.div_le_lower_bound; nia.
Qed.
(** The current value is not cleared: found higher, the clock stands still until it has counted down. *)
Theorem C93_counts_from_start_refuted w : 0 < w -> exists s s0, found w s /\ systick_start 16000000 1000 s = Some s0 /\
  forall ls s1, guarded (ystep w) in_time s0 ls -> run (ystep w) s0 ls = Some s1 -> clocks ls < 16777215 -> systick_now w s1 = y_cnt s.
Proof.
  intros W. exists (mkSyst false false false 16777215 0 0), (mkSyst true true false 16777215 15999 0). assert (B : 0 < 2 ^ w) by (apply Z.pow_pos_nonneg; lia).
  assert (F : found w (mkSyst false false false 16777215 0 0)) by (unfold found; cbn [y_cvr y_cnt]; change (2 ^ 24) with 16777216; lia).
  split; [exact F|]. split; [reflexivity|]. intros ls s1 Gd R L.
  destruct (@started w 16000000 1000 _ _ F ltac:(lia) ltac:(lia) eq_refl) as (P & _ & _ & G).
  destruct (@goes_on w _ _ _ ls W (proj1 P) _ _ _ _ G Gd R) as (n & []). change (16000000 / 1000) with 16000 in *.
  assert (n = 0) as ->.
  { unfold to_wrap in g_k0 at 1. cbn [y_cvr Z.eqb] in g_k0. destruct (Z.eq_dec n 0); [assumption|]. specialize (g_rem0 ltac:(lia)). nia. }
  rewrite g_now0. cbn [y_cnt]. now rewrite Z.mod_small by lia.
Qed.

(** Concrete case: a rate of a fourth of the clock, with an old reload value and flag; nine clocks, one wrap served late by [now]. *)
Example C93_case : let s := mkSyst true false true 0 99 7 in let ls := repeat YClock 6 ++ [YCount] ++ repeat YClock 3 in
  found 32 s /\ exists s0 s1, systick_start 4000 1000 s = Some s0 /\ guarded (ystep 32) in_time s0 ls /\ run (ystep 32) s0 ls = Some s1 /\ systick_now 32 s1 = 9.
Proof.
  cbv zeta. split; [vm_compute; intuition congruence|]. exists (mkSyst true true false 0 3 7), (mkSyst true true true 3 3 8). split; [reflexivity|]. split; [|split; reflexivity].
  vm_compute. repeat split; intros; congruence.
Qed.
Print Assumptions C93_counts_from_start_partial.
Print Assumptions C93_at_most_one_ahead.
Print Assumptions C93_counts_from_start_refuted.
Print Assumptions C93_case.
