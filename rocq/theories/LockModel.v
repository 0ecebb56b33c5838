(** Model of preemptive execution with RTIC resource locks.
    The machine (tasks, interrupts, nesting) is shared by all backends; a backend gives the interrupt masking
    hardware and the code of [lock] and [run]:
    - rtic/src/export/cortex_basepri.rs 11-25 (run), 61-79 (lock), cortex_common.rs 5-7 (cortex_logical2hw);
    - rtic/src/export/cortex_source_mask.rs 15-218;
    - rtic/src/export/riscv_esp32c3.rs 6-33 (run), 52-77 (lock), and riscv_esp32c6.rs, the same code for another
      register.
    The generated [Mutex::lock] (rtic-macros/src/codegen/bindings/cortex.rs 98-120, 161-176) passes the ceiling
    computed by the macro as a constant.
    Simplifications: single core; a task body is any sequence of lock / access / unlock that Rust's borrow rules
    allow (locks well nested, no resource locked twice by one task since [lock] borrows the proxy mutably); each
    register access is atomic, and interrupts may come between any two of them; the read of the old masks is one
    step; NMI and faults are not modelled; the application does not touch the masking registers. *)
From Verif Require Import Base LTS.
Set Implicit Arguments.

(** Interrupt masking hardware with the code of [lock] and [run] over it. *)
Record backend := mkB {
  bm : Type;                                (* masking registers *)
  bs : Type;                                (* what [lock] / [run] remember *)
  save : bm -> nat -> bs;                   (* [lock] with that ceiling: reads before masking *)
  enter : nat -> list (bm -> bm);           (* ... its register writes before the closure *)
  leave : nat -> bs -> list (bm -> bm);     (* ... and after it *)
  hsave : bm -> nat -> bs;                  (* [run] at that priority: before the handler body *)
  hleave : bm -> nat -> bs -> bm;           (* ... after it *)
  admits : bm -> nat -> bool                (* the masking registers let interrupt line [i] through *)
}.

(** An application: interrupt lines with priorities; tasks (hardware tasks, and software tasks run by a
    dispatcher line; [None]: idle and priority-0 tasks, which run in thread mode); the resources each task may
    lock; the ceilings. *)
Record lapp := mkL {
  l_lines : list nat;
  l_prio : nat -> nat;
  l_line : nat -> option nat;
  l_uses : nat -> nat -> bool;
  l_ceil : nat -> nat;
  l_nest : nat -> nat -> bool               (* nestings considered: outer ceiling, inner ceiling *)
}.

Section Machine.
Context (B : backend) (A : lapp).

(** Progress of one [lock] call: [PEnter k] after [k] of the writes before the closure; [PHeld] inside the
    closure; [PLeave k] after [k] of the writes after it. *)
Inductive phase := PEnter (k : nat) | PHeld | PLeave (k : nat).
Record entry := mkE { e_res : nat; e_saved : bs B; e_ph : phase }.
(** An active handler ([None]: thread mode) with the task it is running and its open [lock] calls, innermost
    first. *)
Record frame := mkF { f_line : option nat; f_task : option nat; f_saved : bs B; f_ents : list entry }.

Record mach := mkM { m_mask : bm B; m_stack : list frame }.

Definition lprio (o : option nat) : nat := match o with Some i => l_prio A i | None => 0 end.
Definition tprio (t : nat) : nat := lprio (l_line A t).

(** The innermost open lock call, if any, is inside its closure. *)
Definition calm (es : list entry) : bool := match es with [] => true | e :: _ => match e_ph e with PHeld => true | _ => false end end.
Definition locked (es : list entry) (r : nat) : bool := existsb (fun e => Nat.eqb (e_res e) r) es.
Definition nest_ok (es : list entry) (r : nat) : bool :=
  match es with [] => true | e :: _ => l_nest A (l_ceil A (e_res e)) (l_ceil A r) end.

(** The hardware takes interrupt [i] now. *)
Definition can_take (s : mach) (i : nat) : bool :=
  existsb (Nat.eqb i) (l_lines A) && admits B (m_mask s) i &&
  forallb (fun f => Nat.ltb (lprio (f_line f)) (l_prio A i)) (m_stack s).

Inductive mlabel :=
| LTake (i : nat)           (* interrupt: the handler starts and [run] saves *)
| LStart (t : nat)          (* the handler enters task t (dispatcher: polls it; thread mode: idle or a 0-priority task) *)
| LStop                     (* the task returns or suspends at an await *)
| LLock (r : nat)           (* call of lock: the reads *)
| LMicro                    (* next register write of the innermost lock call, or entering / leaving the closure after the last *)
| LUnlock                   (* the closure returns *)
| LRet.                     (* [run] restores and the handler returns *)

Definition set_ents (f : frame) (es : list entry) : frame := mkF (f_line f) (f_task f) (f_saved f) es.
Definition set_task (f : frame) (t : option nat) : frame := mkF (f_line f) t (f_saved f) (f_ents f).

Definition micro (m : bm B) (f : frame) : option (bm B * frame) :=
  match f_ents f with
  | [] => None
  | e :: es =>
      let c := l_ceil A (e_res e) in
      match e_ph e with
      | PHeld => None
      | PEnter k => match nth_error (enter B c) k with
                    | Some op => Some (op m, set_ents f (mkE (e_res e) (e_saved e) (PEnter (S k)) :: es))
                    | None => Some (m, set_ents f (mkE (e_res e) (e_saved e) PHeld :: es))
                    end
      | PLeave k => match nth_error (leave B c (e_saved e)) k with
                    | Some op => Some (op m, set_ents f (mkE (e_res e) (e_saved e) (PLeave (S k)) :: es))
                    | None => Some (m, set_ents f es)
                    end
      end
  end.

Definition mstep (s : mach) (l : mlabel) : option mach :=
  match m_stack s with
  | [] => None
  | f :: fs =>
      match l with
      | LTake i => if can_take s i then Some (mkM (m_mask s) (mkF (Some i) None (hsave B (m_mask s) (l_prio A i)) [] :: f :: fs)) else None
      | LStart t =>
          match f_task f, f_ents f with
          | None, [] => if (match l_line A t, f_line f with Some i, Some j => Nat.eqb i j | None, None => true | _, _ => false end)
                        then Some (mkM (m_mask s) (set_task f (Some t) :: fs)) else None
          | _, _ => None
          end
      | LStop => match f_task f, f_ents f with
                 | Some _, [] => Some (mkM (m_mask s) (set_task f None :: fs))
                 | _, _ => None
                 end
      | LLock r =>
          match f_task f with
          | Some t => if l_uses A t r && calm (f_ents f) && negb (locked (f_ents f) r) && nest_ok (f_ents f) r
                      then Some (mkM (m_mask s) (set_ents f (mkE r (save B (m_mask s) (l_ceil A r)) (PEnter 0) :: f_ents f) :: fs))
                      else None
          | None => None
          end
      | LMicro => match micro (m_mask s) f with Some (m', f') => Some (mkM m' (f' :: fs)) | None => None end
      | LUnlock => match f_ents f with
                   | e :: es => match e_ph e with
                                | PHeld => Some (mkM (m_mask s) (set_ents f (mkE (e_res e) (e_saved e) (PLeave 0) :: es) :: fs))
                                | _ => None
                                end
                   | [] => None
                   end
      | LRet => match f_line f, f_task f, f_ents f, fs with
                | Some i, None, [], _ :: _ => Some (mkM (hleave B (m_mask s) (l_prio A i) (f_saved f)) fs)
                | _, _, _, _ => None
                end
      end
  end.

(** After start-up: thread mode with masking registers [m0]. *)
Definition m_init (m0 : bm B) (s0 : bs B) : mach := mkM m0 [mkF None None s0 []].
End Machine.
