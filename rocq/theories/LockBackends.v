(** The masking hardware and [lock] / [run] code of each backend, as instances of [LockModel.backend]. *)
From Coq Require Import NArith.
From Verif Require Import Base LTS LockModel.
Set Implicit Arguments.

(** * u8 arithmetic as Rust does it with overflow checks (which constant evaluation always has): shifting by 8
    or more and negative results are errors ([None]); bits shifted out are lost. *)
Definition shl8 (x n : nat) : option nat := if n <? 8 then Some ((x * 2 ^ n) mod 256) else None.
Definition sub8 (x y : nat) : option nat := if y <=? x then Some (x - y) else None.

(** rtic/src/export/cortex_common.rs 5-7 (the same code in rtic-monotonics/src/lib.rs 113-115) *)
Definition logical2hw (logical bits : nat) : option nat :=
  match shl8 1 bits with
  | None => None
  | Some one => match sub8 one logical, sub8 8 bits with
                | Some d, Some n => shl8 d n
                | _, _ => None
                end
  end.
(** rtic-monotonics/src/lib.rs 139-156, set_monotonic_prio: the priority of the timer interrupt;
    [limit] is RTIC_ASYNC_MAX_LOGICAL_PRIO. *)
Definition monotonic_prio (limit bits : nat) : option nat :=
  match shl8 1 bits with
  | None => None
  | Some m => Some (Nat.min (Nat.max limit 1) m)
  end.

(** * BASEPRI: cortex_basepri.rs.  Hardware (ARMv7-M): BASEPRI = 0 masks nothing; otherwise interrupts whose
    hardware priority value is >= BASEPRI are masked; a write to BASEPRI_MAX takes effect only if the value is
    nonzero and lower than BASEPRI, or BASEPRI is 0.  PRIMASK masks everything. *)
Record breg := mkBr { basepri : nat; primask : bool }.
Definition basepri_max (x : nat) (m : breg) : breg :=
  if negb (x =? 0) && ((basepri m =? 0) || (x <? basepri m)) then mkBr x (primask m) else m.
(** critical_section::with (cortex-m, single core): PRIMASK is set, and cleared again if it was clear before. *)
Definition cs_enter (m : breg) : breg := mkBr (basepri m) true.
Definition cs_leave (s m : breg) : breg := if primask s then m else mkBr (basepri m) false.

Section Basepri.
Context (bits : nat) (prio : nat -> nat).
Definition hw (c : nat) : nat := match logical2hw c bits with Some h => h | None => 0 end.
(** [ceiling == (1 << nvic_prio_bits)], line 68 *)
Definition is_max (c : nat) : bool := match shl8 1 bits with Some m => c =? m | None => false end.
Definition basepri_backend : backend := {|
  bm := breg; bs := breg;
  save := fun m _ => m;                                                                     (* 71, or PRIMASK *)
  enter := fun c => if is_max c then [cs_enter] else [basepri_max (hw c)];                  (* 69 / 72 *)
  leave := fun c s => if is_max c then [cs_leave s] else [fun m => mkBr (basepri s) (primask m)];   (* 69 / 74 *)
  hsave := fun m _ => m;                                                                    (* 20 *)
  hleave := fun m p s => mkBr (if p =? 1 then 0 else basepri s) (primask m);                (* 15-23 *)
  admits := fun m i => negb (primask m) && ((basepri m =? 0) || (hw (prio i) <? basepri m))
|}.
Definition breg0 : breg := mkBr 0 false.
End Basepri.

(** * NVIC source masking: cortex_source_mask.rs. *)
Definition setw (l : list N) (k : nat) (w : N) : list N := firstn k l ++ match skipn k l with [] => [] | _ :: t => w :: t end.
Definition getw (l : list N) (k : nat) : N := nth k l 0%N.

(** lines 51-64; [None]: the panic *)
Definition set_bit (mask : list N) (bit : nat) : option (list N) :=
  let block := bit / 32 in
  if length mask <=? block then None
  else Some (setw mask block (N.lor (getw mask block) (N.shiftl 1 (N.of_nat (bit - block * 32))))).
(** lines 17-29 *)
Fixpoint create_mask_from (mask : list N) (ids : list nat) : option (list N) :=
  match ids with
  | [] => Some mask
  | b :: ids' => match set_bit mask b with Some mask' => create_mask_from mask' ids' | None => None end
  end.
Definition create_mask (chunks : nat) (ids : list nat) : option (list N) := create_mask_from (repeat 0%N chunks) ids.
(** lines 34-47 *)
Definition compute_mask_chunks (ids : list nat) : nat := (fold_left (fun mx id => if mx <? id then id else mx) ids 0 + 32) / 32.

(** lines 149-177, with from_prio = 0 *)
Definition orw (a b : list N) : list N := map (fun k => N.lor (getw a k) (getw b k)) (seq 0 (length a)).
Definition compute_mask (chunks : nat) (masks : list (list N)) (c : nat) : list N :=
  fold_left (fun res idx => orw res (nth idx masks [])) (seq 0 c) (repeat 0%N chunks).

Record nreg := mkNr { iser : list N; nprimask : bool }.
(** one iteration of the loops of clear_enable_mask (207-218) and set_enable_mask (195-204); ICER / ISER writes
    clear / set the bits written as 1 *)
Definition clr_word (mask : list N) (k : nat) (m : nreg) : nreg := mkNr (setw (iser m) k (N.ldiff (getw (iser m) k) (getw mask k))) (nprimask m).
Definition set_word (old : list N) (k : nat) (m : nreg) : nreg := mkNr (setw (iser m) k (N.lor (getw (iser m) k) (getw old k))) (nprimask m).

Section SourceMask.
Context (lines : list nat) (prio irqn : nat -> nat) (exc : nat -> bool).
(** rtic-macros/src/codegen/bindings/cortex.rs 68-96: the interrupts of dispatchers and of hardware tasks that
    are not bound to exceptions, by priority (order and duplicates do not matter here). *)
Definition ids_at (p : nat) : list nat := map irqn (filter (fun i => negb (exc i) && (prio i =? p)) lines).
Definition all_ids : list nat := map irqn (filter (fun i => negb (exc i)) lines).
Definition chunks : nat := compute_mask_chunks all_ids.
Definition mask_at (p : nat) : list N := match create_mask chunks (ids_at p) with Some m => m | None => [] end.
Definition masks : list (list N) := [mask_at 1; mask_at 2; mask_at 3].
(** the chunks the loops act on *)
Definition active (mask : list N) : list nat := filter (fun k => negb (getw mask k =? 0)%N) (seq 0 chunks).
(** read_mask, 181-192 *)
Definition read_mask (m : nreg) (mask : list N) : list N := map (fun k => if (getw mask k =? 0)%N then 0%N else getw (iser m) k) (seq 0 chunks).

Definition source_backend : backend := {|
  bm := nreg; bs := nreg;
  save := fun m c => if 4 <=? c then m else mkNr (read_mask m (compute_mask chunks masks c)) (nprimask m);    (* 135 *)
  enter := fun c => if 4 <=? c then [fun m => mkNr (iser m) true]                           (* 131 *)
                    else map (clr_word (compute_mask chunks masks c)) (active (compute_mask chunks masks c));   (* 136 *)
  leave := fun c s => if 4 <=? c then [fun m => if nprimask s then m else mkNr (iser m) false]
                      else map (set_word (iser s)) (active (compute_mask chunks masks c));  (* 141 *)
  hsave := fun m _ => m;                                                                    (* 67-73: run does nothing *)
  hleave := fun m _ _ => m;
  admits := fun m i => negb (nprimask m) && (exc i || N.testbit (getw (iser m) (irqn i / 32)) (N.of_nat (irqn i mod 32)))
|}.
End SourceMask.

(** * ESP32-C3 / C6 interrupt threshold: riscv_esp32c3.rs, riscv_esp32c6.rs.  Hardware: interrupts with priority
    >= threshold pass; the trap entry of the runtime lets only higher priorities preempt a handler. *)
Record treg := mkTr { thresh : nat; mie_off : bool }.
Section Thresh.
Context (prio : nat -> nat).
Definition thresh_backend : backend := {|
  bm := treg; bs := treg;
  save := fun m _ => m;
  enter := fun c => if c =? 15 then [fun m => mkTr (thresh m) true] else [fun m => mkTr (c + 1) (mie_off m)];   (* 54-69 *)
  leave := fun c s => if c =? 15 then [fun m => if mie_off s then m else mkTr (thresh m) false] else [fun m => mkTr (thresh s) (mie_off m)];   (* 56 / 72-74 *)
  hsave := fun m _ => m;                                                                    (* 20-25 *)
  hleave := fun m p s => mkTr (if p =? 1 then 1 else thresh s) (mie_off m);                 (* 12-31 *)
  admits := fun m i => negb (mie_off m) && (thresh m <=? prio i)
|}.
Definition treg0 : treg := mkTr 1 false.
End Thresh.
