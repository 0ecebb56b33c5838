(** Starting the timers whose ticks are counted in half periods: every [_start] as the list of its accesses to the peripheral,
    the counter running in between, from whatever state the peripheral was left in.
    Not here: LETIMER (what its counter does first is not documented well enough), SysTick, RP2040, ESP32 (no half periods). *)
From Verif Require Import Base LTS TicksModel MonoModel.
Open Scope Z_scope.
Set Implicit Arguments.

Inductive tdriver := Stm32 (wide : bool) | NrfRtc | NrfTimer | Imxrt | SilabsTimer (wide : bool) | SilabsRtcc.

(** width of the counter *)
Definition width (d : tdriver) : Z :=
  match d with Stm32 w | SilabsTimer w => if w then 32 else 16 | NrfRtc => 24 | NrfTimer | Imxrt | SilabsRtcc => 32 end.
(** the shape of [on_interrupt] (see MonoModel) *)
Definition isr_of (d : tdriver) : isr_kind :=
  match d with
  | Stm32 _ | NrfRtc | NrfTimer => FullFirst             (* stm32.rs 411-430, 570-589; nrf/rtc.rs 269-281; nrf/timer.rs 308-325 *)
  | Imxrt | SilabsTimer _ => LatchFullFirst              (* imxrt.rs 242-258; silabs/timer.rs 410-431 *)
  | SilabsRtcc => LatchHalfFirst                         (* silabs/rtcc.rs 146-171 *)
  end.

(** Accesses to the peripheral, the half-period counter and the NVIC *)
Inductive op :=
| OReset                  (* reset through the clock controller *)
| OEn (b : bool)          (* module or counter enable bit *)
| ORun (b : bool)         (* start / stop command *)
| OEnmod (b : bool)       (* i.MX RT: zero the counter when it is enabled *)
| OCnt (v : Z)            (* write, or clear, the counter *)
| OTop (v : Z)            (* last value before the counter starts again at 0 *)
| OFullCmp (v : Z)        (* nRF TIMER: compare register for the full period *)
| OHalf (v : Z)           (* compare register for the half period *)
| OIeFull (b : bool) | OIeHalf (b : bool)   (* interrupt enable bits *)
| OUpdate                 (* STM32: EGR.UG *)
| OClrFull | OClrHalf     (* clear an event flag *)
| OHp                     (* store 0 to the half-period counter *)
| OPrio | OUnmask.        (* set_monotonic_prio; NVIC::unmask *)

Definition half_of (d : tdriver) : Z := 2 ^ (width d - 1).
Definition max_of (d : tdriver) : Z := 2 ^ width d - 1.

(** The flags and registers of the compare channel for wake-ups, the prescaler (C64) and TIMER_QUEUE.initialize are left out. *)
Definition start_code (d : tdriver) : list op :=
  match d with
  | Stm32 _ =>            (* stm32.rs 321-374, 464-517; the reset: stm32/meta.rs 51-56, set 113-124 *)
      [OReset; OEn false; OIeFull true; OHalf (half_of d); OIeHalf true; OUpdate; OCnt 1; OClrFull; OClrHalf; OHp; OEn true; OPrio; OUnmask]
  | NrfRtc =>             (* nrf/rtc.rs 202-254 *)
      [OIeHalf false; OIeFull false; OHalf (half_of d); OCnt 0; ORun true; OClrFull; OClrHalf; OHp; OIeHalf true; OIeFull true; OPrio; OUnmask]
  | NrfTimer =>           (* nrf/timer.rs 241-287; bitmode 32 makes the last value 2^32-1 *)
      [OTop (max_of d); OIeFull false; OIeHalf false; OFullCmp 0; OHalf (half_of d); OCnt 0; ORun true; OClrFull; OClrHalf; OHp; OIeFull true; OIeHalf true; OPrio; OUnmask]
  | Imxrt =>              (* imxrt.rs 159-203; FRR = 1 makes the last value 2^32-1 *)
      [OEn false; OClrFull; OClrHalf; OEnmod true; OTop (max_of d); OHp; OIeFull true; OIeHalf true; OHalf (half_of d); OEn true; OEnmod false; OPrio; OUnmask]
  | SilabsTimer _ =>      (* silabs/timer.rs 317-373 *)
      [OEn false; OEn true; ORun false; OTop (max_of d); OCnt 1; OHalf (half_of d); OClrFull; OClrHalf; OIeFull true; OIeHalf true; OHp; ORun true; OPrio; OUnmask]
  | SilabsRtcc =>         (* silabs/rtcc.rs 59-90 *)
      [OEn true; ORun true; OIeHalf true; OIeFull true; OHalf (half_of d); OPrio; OUnmask]
  end.

Record tm := mkTm {
  r_en : bool; r_run : bool; r_enmod : bool;
  r_cnt : Z; r_top : Z; r_fullcmp : Z; r_half : Z;
  r_full_ie : bool; r_half_ie : bool;
  r_full : bool; r_halff : bool;                     (* event flags *)
  r_hp : Z;                                          (* the half-period counter *)
  r_prio : bool; r_unmasked : bool;
  r_ops : list op;                                   (* what is left of [_start] *)
  r_pc : ipc; r_l : bool * bool; r_panic : bool;     (* the handler *)
  r_t : Z; r_set : bool                              (* ghost: ticks since the counter was set, and that it was *)
}.
Definition ticking (s : tm) : bool := r_en s && r_run s.
Definition set_cnt (s : tm) (v : Z) : tm :=
  mkTm (r_en s) (r_run s) (r_enmod s) v (r_top s) (r_fullcmp s) (r_half s) (r_full_ie s) (r_half_ie s) (r_full s) (r_halff s) (r_hp s) (r_prio s) (r_unmasked s) (r_ops s) (r_pc s) (r_l s) (r_panic s) v true.

(** One tick of the timer clock *)
Definition tick (d : tdriver) (s : tm) : tm :=
  if ticking s then
    let wraps := r_cnt s =? r_top s in
    let c := if wraps then 0 else (r_cnt s + 1) mod 2 ^ width d in
    let full := match d with NrfTimer => c =? r_fullcmp s | _ => wraps end in
    mkTm (r_en s) (r_run s) (r_enmod s) c (r_top s) (r_fullcmp s) (r_half s) (r_full_ie s) (r_half_ie s)
      (r_full s || full) (r_halff s || (c =? r_half s)) (r_hp s) (r_prio s) (r_unmasked s) (r_ops s) (r_pc s) (r_l s) (r_panic s) (r_t s + 1) (r_set s)
  else s.

Definition do_op (d : tdriver) (o : op) (s : tm) : tm :=
  match o with
  | OReset => mkTm false (r_run s) false 0 (max_of d) 0 0 false false false false (r_hp s) (r_prio s) (r_unmasked s) (r_ops s) (r_pc s) (r_l s) (r_panic s) 0 true
  | OEn b =>
      let s' := mkTm b (r_run s) (r_enmod s) (r_cnt s) (r_top s) (r_fullcmp s) (r_half s) (r_full_ie s) (r_half_ie s) (r_full s) (r_halff s) (r_hp s) (r_prio s) (r_unmasked s) (r_ops s) (r_pc s) (r_l s) (r_panic s) (r_t s) (r_set s) in
      if b && negb (r_en s) && r_enmod s then set_cnt s' 0 else s'
  | ORun b => mkTm (r_en s) b (r_enmod s) (r_cnt s) (r_top s) (r_fullcmp s) (r_half s) (r_full_ie s) (r_half_ie s) (r_full s) (r_halff s) (r_hp s) (r_prio s) (r_unmasked s) (r_ops s) (r_pc s) (r_l s) (r_panic s) (r_t s) (r_set s)
  | OEnmod b => mkTm (r_en s) (r_run s) b (r_cnt s) (r_top s) (r_fullcmp s) (r_half s) (r_full_ie s) (r_half_ie s) (r_full s) (r_halff s) (r_hp s) (r_prio s) (r_unmasked s) (r_ops s) (r_pc s) (r_l s) (r_panic s) (r_t s) (r_set s)
  | OCnt v => set_cnt s v
  | OTop v => mkTm (r_en s) (r_run s) (r_enmod s) (r_cnt s) v (r_fullcmp s) (r_half s) (r_full_ie s) (r_half_ie s) (r_full s) (r_halff s) (r_hp s) (r_prio s) (r_unmasked s) (r_ops s) (r_pc s) (r_l s) (r_panic s) (r_t s) (r_set s)
  | OFullCmp v => mkTm (r_en s) (r_run s) (r_enmod s) (r_cnt s) (r_top s) v (r_half s) (r_full_ie s) (r_half_ie s) (r_full s) (r_halff s) (r_hp s) (r_prio s) (r_unmasked s) (r_ops s) (r_pc s) (r_l s) (r_panic s) (r_t s) (r_set s)
  | OHalf v => mkTm (r_en s) (r_run s) (r_enmod s) (r_cnt s) (r_top s) (r_fullcmp s) v (r_full_ie s) (r_half_ie s) (r_full s) (r_halff s) (r_hp s) (r_prio s) (r_unmasked s) (r_ops s) (r_pc s) (r_l s) (r_panic s) (r_t s) (r_set s)
  | OIeFull b => mkTm (r_en s) (r_run s) (r_enmod s) (r_cnt s) (r_top s) (r_fullcmp s) (r_half s) b (r_half_ie s) (r_full s) (r_halff s) (r_hp s) (r_prio s) (r_unmasked s) (r_ops s) (r_pc s) (r_l s) (r_panic s) (r_t s) (r_set s)
  | OIeHalf b => mkTm (r_en s) (r_run s) (r_enmod s) (r_cnt s) (r_top s) (r_fullcmp s) (r_half s) (r_full_ie s) b (r_full s) (r_halff s) (r_hp s) (r_prio s) (r_unmasked s) (r_ops s) (r_pc s) (r_l s) (r_panic s) (r_t s) (r_set s)
  | OUpdate =>
      let s' := set_cnt s 0 in
      mkTm (r_en s) (r_run s) (r_enmod s) (r_cnt s') (r_top s) (r_fullcmp s) (r_half s) (r_full_ie s) (r_half_ie s) true (r_halff s) (r_hp s) (r_prio s) (r_unmasked s) (r_ops s) (r_pc s) (r_l s) (r_panic s) (r_t s') (r_set s')
  | OClrFull => mkTm (r_en s) (r_run s) (r_enmod s) (r_cnt s) (r_top s) (r_fullcmp s) (r_half s) (r_full_ie s) (r_half_ie s) false (r_halff s) (r_hp s) (r_prio s) (r_unmasked s) (r_ops s) (r_pc s) (r_l s) (r_panic s) (r_t s) (r_set s)
  | OClrHalf => mkTm (r_en s) (r_run s) (r_enmod s) (r_cnt s) (r_top s) (r_fullcmp s) (r_half s) (r_full_ie s) (r_half_ie s) (r_full s) false (r_hp s) (r_prio s) (r_unmasked s) (r_ops s) (r_pc s) (r_l s) (r_panic s) (r_t s) (r_set s)
  | OHp => mkTm (r_en s) (r_run s) (r_enmod s) (r_cnt s) (r_top s) (r_fullcmp s) (r_half s) (r_full_ie s) (r_half_ie s) (r_full s) (r_halff s) 0 (r_prio s) (r_unmasked s) (r_ops s) (r_pc s) (r_l s) (r_panic s) (r_t s) (r_set s)
  | OPrio => mkTm (r_en s) (r_run s) (r_enmod s) (r_cnt s) (r_top s) (r_fullcmp s) (r_half s) (r_full_ie s) (r_half_ie s) (r_full s) (r_halff s) (r_hp s) true (r_unmasked s) (r_ops s) (r_pc s) (r_l s) (r_panic s) (r_t s) (r_set s)
  | OUnmask => mkTm (r_en s) (r_run s) (r_enmod s) (r_cnt s) (r_top s) (r_fullcmp s) (r_half s) (r_full_ie s) (r_half_ie s) (r_full s) (r_halff s) (r_hp s) (r_prio s) true (r_ops s) (r_pc s) (r_l s) (r_panic s) (r_t s) (r_set s)
  end.
Definition set_ops (s : tm) (l : list op) : tm :=
  mkTm (r_en s) (r_run s) (r_enmod s) (r_cnt s) (r_top s) (r_fullcmp s) (r_half s) (r_full_ie s) (r_half_ie s) (r_full s) (r_halff s) (r_hp s) (r_prio s) (r_unmasked s) l (r_pc s) (r_l s) (r_panic s) (r_t s) (r_set s).

(** What the handler works on, as in MonoModel *)
Definition isr_view (s : tm) : hps := mkHps (r_t s) (r_hp s) (r_full s) (r_halff s) (r_pc s) (r_l s) (r_panic s).
Definition put_view (s : tm) (v : hps) : tm :=
  mkTm (r_en s) (r_run s) (r_enmod s) (r_cnt s) (r_top s) (r_fullcmp s) (r_half s) (r_full_ie s) (r_half_ie s) (h_full v) (h_half v) (h_hp v) (r_prio s) (r_unmasked s) (r_ops s) (h_pc v) (h_l v) (h_panic v) (r_t s) (r_set s).

Inductive tlabel := TTick | TStart | TEnter | TIsr.
Definition tstep (d : tdriver) (s : tm) (l : tlabel) : option tm :=
  match l with
  | TTick => Some (tick d s)
  | TStart => match r_ops s with [] => None | o :: os => Some (do_op d o (set_ops s os)) end
  (* the interrupt is taken, for whatever reason *)
  | TEnter => if r_unmasked s then match hps_step (width d) (isr_of d) (isr_view s) HEnter with Some v => Some (put_view s v) | None => None end else None
  | TIsr => match hps_step (width d) (isr_of d) (isr_view s) HStep with Some v => Some (put_view s v) | None => None end
  end.
