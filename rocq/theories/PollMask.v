(** Polling a delay inside a critical section: the processor's global interrupt enable while
    rtic-time/src/timer_queue.rs 217-249 ([Delay::poll]) runs, with the [pend_interrupt] of the monotonics.

    - [critical_section::with] saves the enable bit, clears it, and on leaving sets it again if it was set (the single
      core implementations of the critical-section crate).  [init] runs as the outermost critical section of the
      first context (codegen/pre_init.rs, post_init.rs: interrupts are off until [init] has returned).
    - preemption is possible whenever the bit is set; priorities are left out, which allows more executions. *)
From Verif Require Import Base LTS.
Set Implicit Arguments.

(** what [poll] and [pend_interrupt] do to the enable bit, one access at a time *)
Inductive mop :=
| MEnter      (* critical_section acquire *)
| MLeave      (* critical_section release *)
| MDisable    (* riscv::interrupt::disable() *)
| MEnable.    (* riscv::interrupt::enable() *)

(** [pend_interrupt]: every Cortex-M monotonic writes a pend register (systick.rs 144-146, rp2040.rs 117-119,
    stm32.rs 399-401, nrf/rtc.rs 320-322, imxrt.rs 238-240, silabs/*.rs); esp32c3.rs 123-133 and esp32c6.rs 124-134
    switch interrupts off, call the handler, whose [n] queue accesses are critical sections (timer_queue.rs 106,
    linked_list.rs 39-62), and switch interrupts on. *)
Inductive target := TNvic | TEsp.
Definition pend_ops (t : target) (n : nat) : list mop :=
  match t with
  | TNvic => []
  | TEsp => [MDisable] ++ concat (repeat [MEnter; MLeave] n) ++ [MEnable]
  end.

(** [Delay::poll] (timer_queue.rs 217-249): [None]: no insertion (ready, or already queued); [Some None]: inserted
    behind the head (linked_list.rs 66-141, one critical section); [Some (Some n)]: inserted as head, then the
    interrupt is pended, [n] being the handler's queue accesses. *)
Definition poll_ops (t : target) (r : option (option nat)) : list mop :=
  match r with
  | None => []
  | Some None => [MEnter; MLeave]
  | Some (Some n) => [MEnter; MLeave] ++ pend_ops t n
  end.

(** a context: the accesses left of the running poll, and the saved bits of its open critical sections, newest
    first; the flag says whether it was opened by user code. *)
Record mctx := mkCtx { c_todo : list mop; c_open : list (bool * bool) }.
Record mst := mkM { m_on : bool; m_cur : mctx; m_susp : list mctx }.

Inductive mlabel :=
| MUserEnter                            (* user code opens a critical section *)
| MUserLeave                            (* and closes it *)
| MPoll (r : option (option nat))       (* user code polls a delay *)
| MOp                                   (* next access of the running poll *)
| MPreempt                              (* another handler starts *)
| MReturn.                              (* and returns *)

(** the first context is [main], in [init] *)
Definition m_init : mst := mkM false (mkCtx [] [(true, true)]) [].

Section Step.
Context (t : target).
Definition enter (user : bool) (s : mst) (todo : list mop) : mst :=
  mkM false (mkCtx todo ((user, m_on s) :: c_open (m_cur s))) (m_susp s).

Definition m_step (s : mst) (l : mlabel) : option mst :=
  let c := m_cur s in
  match l with
  | MUserEnter => match c_todo c with [] => Some (enter true s []) | _ => None end
  | MUserLeave =>
      match c_todo c, c_open c with
      | [], (true, b) :: o => Some (mkM (if b then true else m_on s) (mkCtx [] o) (m_susp s))
      | _, _ => None
      end
  | MPoll r =>
      match c_todo c with
      | [] => Some (mkM (m_on s) (mkCtx (poll_ops t r) (c_open c)) (m_susp s))
      | _ => None
      end
  | MOp =>
      match c_todo c with
      | [] => None
      | MEnter :: k => Some (enter false s k)
      | MLeave :: k =>
          match c_open c with
          | (false, b) :: o => Some (mkM (if b then true else m_on s) (mkCtx k o) (m_susp s))
          | _ => None
          end
      | MDisable :: k => Some (mkM false (mkCtx k (c_open c)) (m_susp s))
      | MEnable :: k => Some (mkM true (mkCtx k (c_open c)) (m_susp s))
      end
  | MPreempt => if m_on s then Some (mkM true (mkCtx [] []) (c :: m_susp s)) else None
  | MReturn =>
      match c_todo c, c_open c, m_susp s with
      | [], [], c' :: k => Some (mkM true c' k)
      | _, _, _ => None
      end
  end.
End Step.

(** * Specification *)
(** a context inside a critical section of user code (or inside [init]) *)
Definition in_user_section (c : mctx) : Prop := exists b, In (true, b) (c_open c).
(** polls of delays happen outside critical sections and outside [init] *)
Definition poll_outside (s : mst) (l : mlabel) : Prop :=
  match l with MPoll _ => ~ in_user_section (m_cur s) | _ => True end.
