(** Model of rtic-time/src/timer_queue.rs: delay futures, the timer interrupt handler and the clock, as a
    transition system at critical-section granularity.

    - [clock] is the true tick count (unbounded); the code only sees [clock mod 2^w].
    - a deadline is kept as the true tick count [T]; the code only sees [T mod 2^w] and compares with
      the wrapping comparison of tick_type.rs.
    - the queue is the ordered list that linked_list.rs has been proved to refine (TimerListProofs.v).
    - the backend (TimerQueueBackend, backend.rs) is abstracted by: the clock, a compare unit that raises
      the interrupt when the clock reaches the armed value while the timer is enabled, and the software
      pend bit.  [set_compare(instant)] executed before [instant] arms some value in
      (now, instant + slack]; executed at or after [instant] it may arm anything or nothing
      (backend.rs lines 13-14 leave that race to the queue).  [slack] is the backend's minimum distance
      (CompareProofs.v proves this contract for the STM32 and nRF backends).
    - steps of any task and of the handler may interleave arbitrarily between critical sections. *)
From Verif Require Import Base LTS TicksModel TimerListSpec.
Open Scope Z_scope.
Set Implicit Arguments.

(** Program counter of one [Delay] future. *)
Inductive dpc :=
| DNone                 (* does not exist yet *)
| DNew                  (* created, never polled with result Pending *)
| DIns (w : nat)        (* poll: line 221 said "not yet", no link: about to insert (lines 229-241) *)
| DPend                 (* poll: insert said head_updated: about to pend the interrupt (line 244) *)
| DPending              (* last poll returned Pending (line 248) *)
| DReady                (* poll returned Ready (line 222) *)
| DDel                  (* drop: was_popped read as false, about to delete (line 262) *)
| DDropped.

(** lines 207-212 [struct Delay], with the link's waker and was_popped flag (lines 17-21). *)
Record fut := mkFut {
  f_T : Z;                  (* instant *)
  f_pc : dpc;
  f_link : bool;            (* link_ptr.is_some() *)
  f_waker : nat;            (* waker stored in the link *)
  f_popped : bool           (* was_popped *)
}.

(** Program counter of the interrupt handler, lines 100-139. *)
Inductive hpc :=
| HIdle
| HClear                    (* entered, about to run clear_compare_flag / on_interrupt (101-102) *)
| HLoop                     (* about to pop_if (106) *)
| HWake (i w : nat)         (* popped, about to wake (117) *)
| HEnable (T : Z)           (* head not due: about to enable_timer (120) *)
| HSet (T : Z)              (* about to set_compare (121) *)
| HCheck (T : Z)            (* about to compare now with the instant (123) *)
| HDisable.                 (* queue empty: about to disable_timer (133) *)

Record tq := mkTq {
  clock : Z;
  queue : list (nat * Z);
  futs : nat -> fut;
  irq_sw : bool;            (* interrupt pended by software (pend_interrupt) *)
  irq_cmp : bool;           (* interrupt requested by the compare unit *)
  enabled : bool;           (* enable_timer / disable_timer *)
  armed : option Z;         (* true tick count at which the compare unit fires next *)
  handler : hpc;
  log : list (nat * nat * Z)   (* history: (future, waker, clock) of every wake, oldest first *)
}.

Section TQ.
Context (w slack : Z).

Definition fut0 : fut := mkFut 0 DNone false 0 false.
Definition tq_init (c : Z) : tq := mkTq c [] (fun _ => fut0) false false false None HIdle [].

(** the code's comparison of two deadlines / of now and a deadline *)
Definition dl_lt (a b : Z) : bool := tick_lt w (a mod 2 ^ w) (b mod 2 ^ w).
Definition due (now T : Z) : bool := is_at_least w (now mod 2 ^ w) (T mod 2 ^ w).

Inductive tlabel :=
| Tick                      (* the clock advances by one *)
| Create (i : nat) (T : Z)  (* delay_until (191-203), queue initialised *)
| Poll (i wk : nat)         (* poll up to the link check (217-228) *)
| Insert (i : nat)          (* 229-241 *)
| Pend (i : nat)            (* 243-245 *)
| Drop (i : nat)            (* drop, 256-261 *)
| Delete (i : nat)          (* drop, 262 *)
| IrqEnter
| HClearL
| HPop                      (* 105-113 *)
| HWakeL
| HEnableL
| HSetL (c : option Z)      (* 121 *)
| HCheckL                   (* 123-129 *)
| HDisableL.

Definition set_fut (s : tq) (i : nat) (f : fut) : tq :=
  mkTq (clock s) (queue s) (upd (futs s) i f) (irq_sw s) (irq_cmp s) (enabled s) (armed s) (handler s) (log s).
Definition set_pc (s : tq) (i : nat) (p : dpc) : tq :=
  let f := futs s i in set_fut s i (mkFut (f_T f) p (f_link f) (f_waker f) (f_popped f)).
Definition set_queue (s : tq) (q : list (nat * Z)) : tq :=
  mkTq (clock s) q (futs s) (irq_sw s) (irq_cmp s) (enabled s) (armed s) (handler s) (log s).
Definition set_handler (s : tq) (h : hpc) : tq :=
  mkTq (clock s) (queue s) (futs s) (irq_sw s) (irq_cmp s) (enabled s) (armed s) h (log s).

Definition arm_ok (now T : Z) (c : option Z) : bool :=
  if now <? T then match c with Some c0 => (now <? c0) && (c0 <=? T + slack) | None => false end
  else true.

Definition tq_step (s : tq) (l : tlabel) : option tq :=
  match l with
  | Tick =>
      let c := clock s + 1 in
      let hit := match armed s with Some a => enabled s && (a =? c) | None => false end in
      Some (mkTq c (queue s) (futs s) (irq_sw s) (irq_cmp s || hit) (enabled s) (armed s) (handler s) (log s))
  | Create i T =>
      match f_pc (futs s i) with
      | DNone => Some (set_fut s i (mkFut T DNew false 0 false))
      | _ => None
      end
  | Poll i wk =>
      let f := futs s i in
      match f_pc f with
      | DNew | DPending =>
          if due (clock s) (f_T f) then Some (set_pc s i DReady)                  (* 221-223 *)
          else if f_link f then Some (set_pc s i DPending)                        (* 228, 248 *)
          else Some (set_pc s i (DIns wk))
      | _ => None
      end
  | Insert i =>
      let f := futs s i in
      match f_pc f with
      | DIns wk =>
          let q := ins dl_lt i (f_T f) (queue s) in                               (* 241 *)
          let head_updated := match q with (j, _) :: _ => Nat.eqb j i | [] => false end in
          Some (set_fut (set_queue s q) i
                  (mkFut (f_T f) (if head_updated then DPend else DPending) true wk false))
      | _ => None
      end
  | Pend i =>
      match f_pc (futs s i) with
      | DPend =>
          let s1 := set_pc s i DPending in
          Some (mkTq (clock s1) (queue s1) (futs s1) true (irq_cmp s1) (enabled s1) (armed s1) (handler s1) (log s1))
      | _ => None
      end
  | Drop i =>
      let f := futs s i in
      match f_pc f with
      | DNew | DPending | DReady =>
          if negb (f_link f) then Some (set_pc s i DDropped)                      (* 257 *)
          else if f_popped f then Some (set_pc s i DDropped)                      (* 259 *)
          else Some (set_pc s i DDel)
      | _ => None
      end
  | Delete i =>
      match f_pc (futs s i) with
      | DDel => Some (set_pc (set_queue s (drop_addr i (queue s))) i DDropped)    (* 262 *)
      | _ => None
      end
  | IrqEnter =>                       (* the interrupt is taken: the pend bit is cleared by hardware *)
      match handler s with
      | HIdle => if irq_sw s || irq_cmp s
                 then Some (mkTq (clock s) (queue s) (futs s) false (irq_cmp s) (enabled s) (armed s) HClear (log s))
                 else None
      | _ => None
      end
  | HClearL =>
      match handler s with
      | HClear => Some (mkTq (clock s) (queue s) (futs s) (irq_sw s) false (enabled s) (armed s) HLoop (log s))
      | _ => None
      end
  | HPop =>
      match handler s with
      | HLoop =>
          match queue s with
          | [] => Some (set_handler s HDisable)                                   (* 131 *)
          | (i, T) :: q =>
              let f := futs s i in
              if due (clock s) T                                                  (* 109 *)
              then Some (set_handler (set_fut (set_queue s q) i
                            (mkFut (f_T f) (f_pc f) (f_link f) (f_waker f) true)) (HWake i (f_waker f)))
              else Some (set_handler (set_fut s i
                            (mkFut (f_T f) (f_pc f) (f_link f) (f_waker f) false)) (HEnable T))
          end
      | _ => None
      end
  | HWakeL =>
      match handler s with
      | HWake i wk => Some (mkTq (clock s) (queue s) (futs s) (irq_sw s) (irq_cmp s) (enabled s) (armed s) HLoop
                               (log s ++ [(i, wk, clock s)]))
      | _ => None
      end
  | HEnableL =>
      match handler s with
      | HEnable T => Some (mkTq (clock s) (queue s) (futs s) (irq_sw s) (irq_cmp s) true (armed s) (HSet T) (log s))
      | _ => None
      end
  | HSetL c =>
      match handler s with
      | HSet T => if arm_ok (clock s) T c
                  then Some (mkTq (clock s) (queue s) (futs s) (irq_sw s) (irq_cmp s) (enabled s) c (HCheck T) (log s))
                  else None
      | _ => None
      end
  | HCheckL =>
      match handler s with
      | HCheck T => Some (set_handler s (if due (clock s) T then HLoop else HIdle))   (* 123-129 *)
      | _ => None
      end
  | HDisableL =>
      match handler s with
      | HDisable => Some (mkTq (clock s) (queue s) (futs s) (irq_sw s) (irq_cmp s) false (armed s) HIdle (log s))
      | _ => None
      end
  end.

(** All live deadlines, the instant being armed and the current time fit into one window shorter than
    half the tick range (the documented precondition of the wrapping comparison). *)
Definition in_window (s : tq) : Prop :=
  exists lo hi, hi - lo < 2 ^ (w - 1) /\ lo <= clock s <= hi /\
    (forall i, f_pc (futs s i) <> DNone -> f_pc (futs s i) <> DDropped -> lo <= f_T (futs s i) <= hi) /\
    (forall T, handler s = HEnable T \/ handler s = HSet T \/ handler s = HCheck T -> lo <= T <= hi).

Definition guard (s : tq) (_ : tlabel) : Prop := in_window s.

End TQ.

(** Timeout::poll, lines 275-293: [fr] is the result of polling the inner future, [dr] whether the delay
    is ready. *)
Inductive timeout_out (A : Type) := TOk (v : A) | TErr | TPending.
Arguments TOk {A}. Arguments TErr {A}. Arguments TPending {A}.
Definition timeout_poll {A} (w : Z) (fr : option A) (now deadline : Z) : timeout_out A :=
  match fr with
  | Some v => TOk v                                       (* 280-282 *)
  | None => if delay_ready w now deadline then TErr       (* 287-289 *)
            else TPending
  end.
