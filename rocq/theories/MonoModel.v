(** Models of the time keeping of rtic-time/src/half_period_counter.rs and of the backends in
    rtic-monotonics/src: half-period counting, compare values, split 64-bit reads, SysTick, blocking
    delays.  Integers are [Z] with the wrap written explicitly. *)
From Verif Require Import Base LTS TicksModel.
Open Scope Z_scope.
Set Implicit Arguments.

(** half_period_counter.rs lines 196-239, [calculate_now], on output width [W] and timer width [B]
    ([T::BITS]).  [None] is the overflow panic of [+] (line 177, debug builds). *)
Definition calculate_now (W B half_periods timer_value : Z) : option Z :=
  let upper_half := Z.shiftl half_periods (B - 1) mod 2 ^ W in          (* 236 *)
  let lower_half := Z.land (Z.shiftl 1 (B - 1)) upper_half in           (* 237 *)
  let r := upper_half + Z.lxor lower_half timer_value in                (* 238 *)
  if r <? 2 ^ W then Some r else None.

(** * Half-period interrupts.
    stm32.rs 411-430, nrf/rtc.rs 269-281 and nrf/timer.rs (full-period flag tested first, each flag
    read when it is tested); imxrt.rs 242-258 and silabs/timer.rs 411-432 (both flags read at once,
    full first); silabs/letimer.rs 166-190 and silabs/rtcc.rs (both read at once, half first). *)
Inductive isr_kind := FullFirst | LatchFullFirst | LatchHalfFirst.

Inductive ipc :=
| INone
| ITest1 (lf lh : bool)     (* about to test the first flag; latched values *)
| IClr1                     (* first flag was set: about to clear it and count *)
| ITest2 (lf lh : bool)
| IClr2.

Record hps := mkHps {
  h_t : Z;            (* true tick count since start *)
  h_hp : Z;           (* the half-period counter variable *)
  h_full : bool;      (* hardware flag: the counter wrapped *)
  h_half : bool;      (* hardware flag: the counter reached the half value *)
  h_pc : ipc;
  h_l : bool * bool;  (* latched flags *)
  h_panic : bool      (* an assert! fired *)
}.

Definition hps_init (t0 : Z) : hps := mkHps t0 0 false false INone (false, false) false.

Inductive hlabel := HTick | HEnter | HStep.

(** the flag (true = full) examined as first / second *)
Definition first_full (k : isr_kind) : bool := match k with LatchHalfFirst => false | _ => true end.
Definition latching (k : isr_kind) : bool := match k with FullFirst => false | _ => true end.

Definition flag_of (s : hps) (full : bool) : bool := if full then h_full s else h_half s.

(** count one half period: [fetch_add(1)] with the parity assertion (full: previous odd; half: even) *)
Definition count_half (s : hps) (full : bool) (pc : ipc) : hps :=
  let ok := if full then Z.odd (h_hp s) else Z.even (h_hp s) in
  mkHps (h_t s) (h_hp s + 1)
        (if full then false else h_full s) (if full then h_half s else false) pc (h_l s)
        (h_panic s || negb ok).

Definition set_ipc (s : hps) (pc : ipc) : hps :=
  mkHps (h_t s) (h_hp s) (h_full s) (h_half s) pc (h_l s) (h_panic s).

Definition hps_step (B : Z) (k : isr_kind) (s : hps) (l : hlabel) : option hps :=
  match l with
  | HTick =>
      let t := h_t s + 1 in
      Some (mkHps t (h_hp s) (h_full s || (t mod 2 ^ B =? 0)) (h_half s || (t mod 2 ^ B =? 2 ^ (B - 1)))
                  (h_pc s) (h_l s) (h_panic s))
  | HEnter =>        (* the timer interrupt (any cause) is taken *)
      match h_pc s with
      | INone => Some (mkHps (h_t s) (h_hp s) (h_full s) (h_half s) (ITest1 (h_full s) (h_half s))
                         (h_full s, h_half s) (h_panic s))
      | _ => None
      end
  | HStep =>
      match h_pc s with
      | INone => None
      | ITest1 lf lh =>
          let f := if latching k then (if first_full k then lf else lh) else flag_of s (first_full k) in
          Some (set_ipc s (if f then IClr1 else ITest2 lf lh))
      | IClr1 => Some (count_half s (first_full k) (ITest2 (fst (h_l s)) (snd (h_l s))))
      | ITest2 lf lh =>
          let f := if latching k then (if first_full k then lh else lf) else flag_of s (negb (first_full k)) in
          Some (set_ipc s (if f then IClr2 else INone))
      | IClr2 => Some (count_half s (negb (first_full k)) INone)
      end
  end.

(** Interrupt latency below one half period: when the timer crosses a half-period boundary the interrupt
    of the previous boundary has been served. *)
Definition latency_ok (B : Z) (s : hps) (l : hlabel) : Prop :=
  match l with
  | HTick => (h_t s + 1) mod 2 ^ (B - 1) = 0 -> h_full s = false /\ h_half s = false
  | _ => True
  end.

(** * Compare values.  [next_match B v t]: the first time strictly after [t] at which a [B]-bit counter
    shows [v]. *)
Definition next_match (B v t : Z) : Z := t + 1 + (v - (t + 1)) mod 2 ^ B.

(** stm32.rs 283-298 [compute_compare_value] (also silabs/timer.rs, silabs/rtcc.rs 120-135, rp2040.rs
    94-111, rp235x.rs 96-113 with B = 32); [W] = 64. *)
Definition compare_near (W B instant now : Z) : Z :=
  if wsub W instant now <=? 2 ^ B - 1 then instant mod 2 ^ B else 0.

(** imxrt.rs 220-231 and nrf/timer.rs: [instant as u32]. *)
Definition compare_trunc (B instant : Z) : Z := instant mod 2 ^ B.

(** nrf/rtc.rs 283-313, B = 24. *)
Definition compare_rtc (W B instant now : Z) : Z :=
  let diff := wsub W instant now in
  if diff <=? 2 ^ B - 1 then (if diff <? 3 then wadd W now 3 else instant) mod 2 ^ B else 0.

(** * rp2040.rs 80-92 / rp235x.rs 82-94: [now].  [time k] is the timer value when the k-th register read
    of this call happens; [fuel] bounds the loop ([None] = still looping). *)
Definition hi32 (t : Z) : Z := (t / 2 ^ 32) mod 2 ^ 32.
Definition lo32 (t : Z) : Z := t mod 2 ^ 32.
Fixpoint rp_loop (fuel : nat) (time : nat -> Z) (k : nat) (hi0 : Z) : option Z :=
  match fuel with
  | 0%nat => None
  | S fuel' =>
      let low := lo32 (time k) in
      let hi1 := hi32 (time (S k)) in
      if hi0 =? hi1 then Some (Z.lor (Z.shiftl hi0 32) low)
      else rp_loop fuel' time (S (S k)) hi1
  end.
Definition rp_now (fuel : nat) (time : nat -> Z) : option Z := rp_loop fuel time 1 (hi32 (time 0%nat)).

(** * systick.rs 128-152: [now] and [on_interrupt] by any number of contexts.  Reading COUNTFLAG
    ([has_wrapped]) clears it. *)
Inductive spc :=
| SNone                  (* not in now / on_interrupt *)
| SAdd (is_now : bool)   (* saw the flag, about to fetch_add *)
| SLoad.                 (* now: about to load *)

Record sys := mkSys {
  s_wraps : Z;                 (* true number of SysTick wraps *)
  s_flag : bool;               (* COUNTFLAG *)
  s_cnt : Z;                   (* SYSTICK_CNT, width w *)
  s_pc : nat -> spc;
  s_adds : list nat;           (* ghost: contexts that have cleared the flag and not yet added *)
  s_ret : list (Z * Z)         (* history of [now] results: (value returned, true wraps at that time) *)
}.
Definition sys_init : sys := mkSys 0 false 0 (fun _ => SNone) [] [].

Inductive slabel := SWrap | SBegin (c : nat) (is_now : bool) | SAddL (c : nat) | SLoadL (c : nat).

Definition sys_step (w : Z) (s : sys) (l : slabel) : option sys :=
  match l with
  | SWrap => Some (mkSys (s_wraps s + 1) true (s_cnt s) (s_pc s) (s_adds s) (s_ret s))
  | SBegin c b =>               (* 129 / 149: read and clear COUNTFLAG *)
      match s_pc s c with
      | SNone =>
          if s_flag s
          then Some (mkSys (s_wraps s) false (s_cnt s) (upd (s_pc s) c (SAdd b)) (c :: s_adds s) (s_ret s))
          else Some (mkSys (s_wraps s) false (s_cnt s) (upd (s_pc s) c (if b then SLoad else SNone)) (s_adds s) (s_ret s))
      | _ => None
      end
  | SAddL c =>                  (* 130 / 150 *)
      match s_pc s c with
      | SAdd b => Some (mkSys (s_wraps s) (s_flag s) (wadd w (s_cnt s) 1)
                          (upd (s_pc s) c (if b then SLoad else SNone))
                          (remove Nat.eq_dec c (s_adds s)) (s_ret s))
      | _ => None
      end
  | SLoadL c =>                 (* 133 *)
      match s_pc s c with
      | SLoad => Some (mkSys (s_wraps s) (s_flag s) (s_cnt s) (upd (s_pc s) c SNone) (s_adds s)
                         (s_ret s ++ [(s_cnt s, s_wraps s)]))
      | _ => None
      end
  end.

(** A wrap is observed (flag read) before the next one. *)
Definition sys_guard (s : sys) (l : slabel) : Prop :=
  match l with SWrap => s_flag s = false | _ => True end.

(** * esp32c3.rs 82-93 / esp32c6.rs 83-94: [now] reads a 64-bit latch in two 32-bit halves, without a
    critical section. *)
Inductive epc := ENone | ELatched | ELo (lo : Z) | EDone (v : Z).
Record esp := mkEsp { e_t : Z; e_latch : Z; e_pc : nat -> epc; e_begin : nat -> Z }.
Definition esp_init (t : Z) : esp := mkEsp t 0 (fun _ => ENone) (fun _ => 0).
Inductive elabel := ETick (d : Z) | EUpdate (c : nat) | EReadLo (c : nat) | EReadHi (c : nat).
Definition esp_step (s : esp) (l : elabel) : option esp :=
  match l with
  | ETick d => if 0 <=? d then Some (mkEsp (e_t s + d) (e_latch s) (e_pc s) (e_begin s)) else None
  | EUpdate c =>
      match e_pc s c with
      | ENone => Some (mkEsp (e_t s) (e_t s) (upd (e_pc s) c ELatched) (upd (e_begin s) c (e_t s)))
      | _ => None
      end
  | EReadLo c =>
      match e_pc s c with
      | ELatched => Some (mkEsp (e_t s) (e_latch s) (upd (e_pc s) c (ELo (lo32 (e_latch s)))) (e_begin s))
      | _ => None
      end
  | EReadHi c =>
      match e_pc s c with
      | ELo lo => Some (mkEsp (e_t s) (e_latch s) (upd (e_pc s) c (EDone (Z.lor lo (Z.shiftl (hi32 (e_latch s)) 32)))) (e_begin s))
      | _ => None
      end
  end.
(** no other context is between its latch update and its last read *)
Definition esp_alone (s : esp) (l : elabel) : Prop :=
  match l with
  | EUpdate c => forall c', e_pc s c' <> ELatched /\ (forall lo, e_pc s c' <> ELo lo)
  | _ => True
  end.

(** * silabs/letimer.rs 120-140: [now] of the down counter; [cnt = 2^24 - 1 - (t mod 2^24)]. *)
Definition letimer_value (t : Z) : Z :=
  let cnt := 2 ^ 24 - 1 - t mod 2 ^ 24 in
  if cnt =? 0 then 0 else 2 ^ 24 - 1 - cnt.
Definition letimer_now (hp t : Z) : option Z := calculate_now 64 24 hp (letimer_value t).

(** silabs/letimer.rs 142-156: up-count time at which the comparator matches (down value v matches when
    t mod 2^24 = 2^24 - 1 - v). *)
Definition letimer_compare (instant now : Z) : Z :=
  if Z.max 0 (instant - now) <=? 2 ^ 24 - 1 then 2 ^ 24 - 1 - instant mod 2 ^ 24 else 2 ^ 24 - 1.
Definition letimer_match (v t : Z) : Z := next_match 24 (2 ^ 24 - 1 - v) t.

(** * Blocking delay, embedded_hal_macros.rs 8-20 (ns; us and ms identical up to the unit).
    [num/den] ticks per unit; [*_at_least] rounds up (fugit); [now], [+=] and [<] on instants are fugit's
    wrapping operations (external: Instant::const_cmp is the half-range comparison). [times] are the
    clock values seen by the successive calls of [now] in the spin loop; the result is the index of the
    call that ended the loop. *)
Definition at_least (num den x : Z) : Z := - ((- (x * num)) / den).
Definition hal_done (w now d : Z) : Z :=
  let done := wadd w now d in if now =? done then done else wadd w done 1.
Fixpoint hal_spin (fuel : nat) (w done : Z) (times : nat -> Z) (k : nat) : option nat :=
  match fuel with
  | 0%nat => None
  | S fuel' => if tick_lt w (times k mod 2 ^ w) done then hal_spin fuel' w done times (S k) else Some k
  end.
