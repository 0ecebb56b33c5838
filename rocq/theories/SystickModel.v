(** Starting SysTick (rtic-monotonics/src/systick.rs) and its count at the level of processor clocks.  The steps inside [now] and
    the handler are taken as one here: MonoModel's SysTick machine (C46) interleaves them. *)
From Verif Require Import Base LTS.
Open Scope Z_scope.
Set Implicit Arguments.

(** The SysTick registers (ARMv7-M B3.3) and SYSTICK_CNT (systick.rs 73-81) *)
Record syst := mkSyst {
  y_en : bool; y_ie : bool;          (* CSR.ENABLE, CSR.TICKINT *)
  y_flag : bool;                     (* CSR.COUNTFLAG *)
  y_cvr : Z; y_rvr : Z;              (* current value, reload value: 24 bits *)
  y_cnt : Z                          (* SYSTICK_CNT, of [w] bits *)
}.
(** cortex-m's enable_/disable_ calls modify CSR; reading CSR clears COUNTFLAG (external crate, as documented). *)
Definition csr_modify (en ie : bool) (s : syst) : syst := mkSyst en ie false (y_cvr s) (y_rvr s) (y_cnt s).
(** The register has 24 bits. *)
Definition set_reload (v : Z) (s : syst) : syst := mkSyst (y_en s) (y_ie s) (y_flag s) (y_cvr s) (v mod 2 ^ 24) (y_cnt s).
(** systick.rs 95-112, [_start]; the clock source is left out.  [None]: an assertion or overflow panic. *)
Definition systick_start (sysclk timer_hz : Z) (s : syst) : option syst :=
  if timer_hz =? 0 then None else                       (* 96-100: division by zero *)
  if negb (sysclk mod timer_hz =? 0) then None else     (* 96-99 *)
  let reload := sysclk / timer_hz - 1 in                (* 100 *)
  if negb (reload <=? 0x00ffffff) then None else        (* 102 *)
  if negb (0 <? reload) then None else                  (* 103 *)
  let s := csr_modify false (y_ie s) s in               (* 105 *)
  let s := csr_modify (y_en s) (y_ie s) s in            (* 106 *)
  let s := set_reload reload s in                       (* 107 *)
  let s := csr_modify (y_en s) true s in                (* 108 *)
  Some (csr_modify true (y_ie s) s).                    (* 109 *)

(** One clock of SysTick: from 0 the counter is reloaded, without the flag; going from 1 to 0 sets it. *)
Definition clock (s : syst) : syst :=
  if y_en s then
    if y_cvr s =? 0 then mkSyst (y_en s) (y_ie s) (y_flag s) (y_rvr s) (y_rvr s) (y_cnt s)
    else mkSyst (y_en s) (y_ie s) (y_flag s || (y_cvr s =? 1)) (y_cvr s - 1) (y_rvr s) (y_cnt s)
  else s.
(** systick.rs 148-152, [on_interrupt]; 128-134, [now] (which returns the count afterwards) *)
Definition count (w : Z) (s : syst) : syst :=
  mkSyst (y_en s) (y_ie s) false (y_cvr s) (y_rvr s) (if y_flag s then (y_cnt s + 1) mod 2 ^ w else y_cnt s).
Definition systick_now (w : Z) (s : syst) : Z := y_cnt (count w s).

Inductive ylabel := YClock | YCount.
Definition ystep (w : Z) (s : syst) (l : ylabel) : option syst :=
  Some (match l with YClock => clock s | YCount => count w s end).
