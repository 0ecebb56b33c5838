From Coq Require Import ZArith List Lia Bool.
From Verif Require Import TicksModel TicksProofs MonoModel MonoProofs StartModel.
Import ListNotations.
Open Scope Z_scope.

(** The divisor found by the three drivers that divide. *)
Lemma quot_exact clk hz : 0 < hz -> clk mod hz = 0 -> clk / hz * hz = clk.
Proof. intros H E. pose proof (Z.div_mod clk hz). lia. Qed.

Lemma systick_inv ck clk hz v : 0 <= clk < 2 ^ 32 -> 0 <= hz < 2 ^ 32 -> systick_start ck clk hz = Some v ->
  0 < hz /\ (v + 1) * hz = clk /\ 1 <= v < 2 ^ 24.
Proof.
  intros Hc Hh. unfold systick_start, assert_, is_multiple_of, bind, div32, sub32.
  destruct (Z.eqb_spec hz 0) as [->|Hz]; [destruct (clk =? 0); discriminate|].
  destruct (Z.eqb_spec (clk mod hz) 0) as [E|]; [|discriminate].
  assert (Hp : 0 < hz) by lia. pose proof (quot_exact clk hz Hp E) as Q.
  destruct (Z.leb_spec 1 (clk / hz)).
  - destruct (Z.leb_spec (clk / hz - 1) 0xffffff); [|discriminate].
    destruct (Z.ltb_spec 0 (clk / hz - 1)); [|discriminate].
    intros [= <-]. split; [lia|]. split; [|lia]. replace (clk / hz - 1 + 1) with (clk / hz) by lia. exact Q.
  - destruct ck; [discriminate|]. assert (0 <= clk / hz) by (apply Z.div_pos; lia).
    destruct (Z.leb_spec (clk / hz - 1 + 2 ^ 32) 0xffffff); [lia|discriminate].
Qed.

Lemma psc_inv ck clk hz v : 0 <= clk < 2 ^ 32 -> 0 <= hz < 2 ^ 32 -> stm32_start ck clk hz = Some v ->
  0 < hz /\ (v + 1) * hz = clk /\ 0 <= v < 2 ^ 16.
Proof.
  intros Hc Hh. unfold stm32_start, assert_, rem32, bind, div32, sub32, try_u16.
  destruct (Z.eqb_spec hz 0) as [->|Hz]; [discriminate|].
  destruct (Z.eqb_spec (clk mod hz) 0) as [E|]; [|discriminate].
  assert (Hp : 0 < hz) by lia. pose proof (quot_exact clk hz Hp E) as Q.
  destruct (Z.leb_spec 1 (clk / hz)).
  - destruct (Z.ltb_spec (clk / hz - 1) (2 ^ 16)); [|discriminate].
    intros [= <-]. split; [lia|]. split; [|lia]. replace (clk / hz - 1 + 1) with (clk / hz) by lia. exact Q.
  - destruct ck; [discriminate|]. assert (0 <= clk / hz) by (apply Z.div_pos; lia).
    destruct (Z.ltb_spec (clk / hz - 1 + 2 ^ 32) (2 ^ 16)); [lia|discriminate].
Qed.

Lemma silabs_inv ck clk hz v : 0 <= clk < 2 ^ 32 -> 0 <= hz < 2 ^ 32 -> silabs_start ck clk hz = Some v ->
  0 < hz /\ (v + 1) * hz = clk /\ 0 <= v < 2 ^ 16.
Proof. exact (@psc_inv ck clk hz v). Qed.

Lemma lookup_in hz l p : lookup hz l = Some p -> In (hz, p) l.
Proof.
  induction l as [|(r, q) l IH]; cbn; [discriminate|].
  destruct (Z.eqb_spec hz r) as [->|]; [intros [= ->]; now left|right; auto].
Qed.

Lemma nrf_inv hz p : lookup hz nrf_table = Some p -> 2 ^ (p mod 2 ^ 4) * hz = 16000000 /\ 0 <= p <= 9.
Proof.
  intros H%lookup_in. cbn in H.
  repeat match type of H with _ \/ _ => destruct H as [[= <- <-]|H] end; try contradiction; vm_compute; intuition congruence.
Qed.

Lemma letimer_inv hz p : lookup hz letimer_table = Some p -> 2 ^ (p mod 2 ^ 4) * hz = 32768 /\ 0 <= p <= 7.
Proof.
  intros H%lookup_in. cbn in H.
  repeat match type of H with _ \/ _ => destruct H as [[= <- <-]|H] end; try contradiction; vm_compute; intuition congruence.
Qed.

(** The rate realised. *)
Lemma start_rate d ck clk hz v : 0 <= clk < 2 ^ 32 -> 0 <= hz < 2 ^ 32 ->
  (d = SilabsTimer -> clk <= 1024 * hz) -> start d ck clk hz = Some v ->
  0 < tick_period d v /\ tick_period d v * hz = source_hz d clk.
Proof.
  intros Hc Hh Hs H. destruct d; cbn [start tick_period source_hz] in *.
  - apply systick_inv in H as (_ & E & R); [|assumption|assumption]. rewrite Z.mod_small by lia. lia.
  - apply psc_inv in H as (_ & E & R); [|assumption|assumption]. rewrite Z.mod_small by lia. lia.
  - apply silabs_inv in H as (Hp & E & R); [|assumption|assumption]. specialize (Hs eq_refl).
    rewrite Z.mod_small by nia. lia.
  - apply nrf_inv in H as (E & R). split; [|exact E]. apply Z.pow_pos_nonneg; [lia|]. apply Z.mod_pos_bound. reflexivity.
  - apply letimer_inv in H as (E & R). split; [|exact E]. apply Z.pow_pos_nonneg; [lia|]. apply Z.mod_pos_bound. reflexivity.
Qed.

Lemma rate_ticks P hz clk r : 0 < P -> P * hz = clk -> counter_at P (r + clk) = counter_at P r + hz.
Proof. intros HP <-. unfold counter_at. rewrite Z.mul_comm, Z.div_add by lia. reflexivity. Qed.

(** Completeness: a panic means that no register value gives the rate. *)
Lemma quot_of P hz clk : 0 < hz -> P * hz = clk -> clk / hz = P /\ clk mod hz = 0.
Proof.
  intros Hh <-. split; [apply Z.div_mul; lia|apply Z.mod_mul; lia].
Qed.

Lemma systick_complete ck clk hz : 0 < hz -> systick_start ck clk hz = None ->
  forall v, 1 <= v < 2 ^ 24 -> (v + 1) * hz <> clk.
Proof.
  intros Hh H v Hv E. apply quot_of in E as (Q & R); [|assumption].
  unfold systick_start, assert_, is_multiple_of, bind, div32, sub32 in H.
  destruct (Z.eqb_spec hz 0); [lia|]. rewrite R, Q in H. cbn [Z.eqb] in H.
  destruct (Z.leb_spec 1 (v + 1)); [|lia].
  destruct (Z.leb_spec (v + 1 - 1) 0xffffff); [|lia].
  destruct (Z.ltb_spec 0 (v + 1 - 1)); [discriminate|lia].
Qed.

Lemma psc_complete ck clk hz : 0 < hz -> stm32_start ck clk hz = None ->
  forall v, 0 <= v < 2 ^ 16 -> (v + 1) * hz <> clk.
Proof.
  intros Hh H v Hv E. apply quot_of in E as (Q & R); [|assumption].
  unfold stm32_start, assert_, rem32, bind, div32, sub32, try_u16 in H.
  destruct (Z.eqb_spec hz 0); [lia|]. rewrite R, Q in H. cbn [Z.eqb] in H.
  destruct (Z.leb_spec 1 (v + 1)); [|lia].
  destruct (Z.ltb_spec (v + 1 - 1) (2 ^ 16)); [discriminate|lia].
Qed.

Lemma range_split (P : Z -> Prop) n : (forall k, (k < n)%nat -> P (Z.of_nat k)) -> forall p, 0 <= p < Z.of_nat n -> P p.
Proof. intros H p Hp. rewrite <- (Z2Nat.id p) by lia. apply H. lia. Qed.

Lemma nrf_complete hz : lookup hz nrf_table = None -> forall p, 0 <= p <= 9 -> 2 ^ p * hz <> 16000000.
Proof.
  intros H p Hp E.
  assert (C : p = 0 \/ p = 1 \/ p = 2 \/ p = 3 \/ p = 4 \/ p = 5 \/ p = 6 \/ p = 7 \/ p = 8 \/ p = 9) by lia.
  repeat match type of C with _ \/ _ => destruct C as [->|C] | _ => subst p end;
    match type of E with ?a * _ = _ => let a' := eval vm_compute in a in change a with a' in E end;
    match type of E with ?a * ?h = ?b => let q := eval vm_compute in (b / a) in assert (Q : h = q) by lia end;
    rewrite Q in H; vm_compute in H; discriminate.
Qed.

Lemma letimer_complete hz : lookup hz letimer_table = None -> forall p, 0 <= p <= 7 -> 2 ^ p * hz <> 32768.
Proof.
  intros H p Hp E.
  assert (C : p = 0 \/ p = 1 \/ p = 2 \/ p = 3 \/ p = 4 \/ p = 5 \/ p = 6 \/ p = 7) by lia.
  repeat match type of C with _ \/ _ => destruct C as [->|C] | _ => subst p end;
    match type of E with ?a * _ = _ => let a' := eval vm_compute in a in change a with a' in E end;
    match type of E with ?a * ?h = ?b => let q := eval vm_compute in (b / a) in assert (Q : h = q) by lia end;
    rewrite Q in H; vm_compute in H; discriminate.
Qed.

(** * Delays in real time *)
Lemma at_least_lt num den x : 0 < den -> at_least num den x * den < x * num + den.
Proof. intros Hd. unfold at_least. pose proof (Z.mul_succ_div_gt (- (x * num)) den Hd). nia. Qed.
Lemma at_least_nonneg num den x : 0 < den -> 0 <= num -> 0 <= x -> 0 <= at_least num den x.
Proof. intros Hd Hn Hx. pose proof (@at_least_ge num den x Hd). nia. Qed.

Lemma hal_async_not_early w P hz unit r0 r1 x :
  1 <= w -> 0 < P -> 0 <= hz -> 0 < unit -> 0 <= x -> r0 <= r1 -> at_least hz unit x + 1 <= 2 ^ (w - 1) ->
  delay_ready w (counter_at P r1 mod 2 ^ w) (hal_async_deadline w hz unit (counter_at P r0) x) = true ->
  x * (P * hz) <= (r1 - r0) * unit.
Proof.
  intros Hw HP Hh Hu Hx Hr Hd H. unfold hal_async_deadline, counter_at in H.
  pose proof (@at_least_nonneg hz unit x Hu Hh Hx). pose proof (@at_least_ge hz unit x Hu).
  apply delay_not_early in H; try assumption. nia.
Qed.

Lemma hal_async_prompt w P hz unit r0 r1 x :
  1 <= w -> 0 < P -> 0 <= hz -> 0 < unit -> 0 <= x -> at_least hz unit x + 1 <= 2 ^ (w - 1) ->
  x * (P * hz) + 2 * P * unit <= (r1 - r0) * unit -> counter_at P r1 - counter_at P r0 < 2 ^ (w - 1) ->
  delay_ready w (counter_at P r1 mod 2 ^ w) (hal_async_deadline w hz unit (counter_at P r0) x) = true.
Proof.
  intros Hw HP Hh Hu Hx Hd Hlong Hwin. unfold hal_async_deadline.
  pose proof (@at_least_nonneg hz unit x Hu Hh Hx) as Hn. pose proof (@at_least_lt hz unit x Hu) as Hl.
  apply delay_prompt; try assumption. split; [|assumption].
  set (d := at_least hz unit x) in *.
  assert (Hd1 : (d + 1) * P <= r1 - r0) by nia.
  enough (d + 1 <= counter_at P r1 - counter_at P r0) by (destruct (d =? 0); lia).
  unfold counter_at. pose proof (Z.mul_div_le r0 P HP).
  assert (r0 / P + (d + 1) <= r1 / P); [|lia].
  apply Z.div_le_lower_bound; [assumption|]. nia.
Qed.

(** Every accepted divisor above 1024 makes the Silabs TIMER run at least twice as fast as declared. *)
Lemma silabs_too_fast ck clk hz v : 0 <= clk < 2 ^ 32 -> 0 <= hz < 2 ^ 32 ->
  silabs_start ck clk hz = Some v -> 1024 * hz < clk ->
  forall r, 2 * hz <= counter_at (tick_period SilabsTimer v) (r + clk) - counter_at (tick_period SilabsTimer v) r.
Proof.
  intros Hc Hh H Hbig r. apply silabs_inv in H as (Hp & E & R); [|assumption|assumption]. cbn [tick_period].
  assert (Hv : 1024 <= v) by nia.
  pose proof (Z.mod_pos_bound v (2 ^ 10) eq_refl) as B. pose proof (Z.div_mod v (2 ^ 10) ltac:(lia)) as D.
  change (2 ^ 10) with 1024 in *.
  assert (Hq : 1 <= v / 1024) by (apply Z.div_le_lower_bound; lia).
  set (P := v mod 1024 + 1) in *. unfold counter_at.
  assert (HPc : P + 1024 <= v + 1) by nia.
  assert (r / P + 2 * hz <= (r + clk) / P); [|lia].
  apply Z.div_le_lower_bound; [lia|]. pose proof (Z.mul_div_le r P ltac:(lia)). nia.
Qed.
