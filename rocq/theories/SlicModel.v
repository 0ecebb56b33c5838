(** The SLIC target: the software interrupts the generated code declares, raises, configures and handles. *)
From Verif Require Import Base AppModel.
Set Implicit Arguments.
Open Scope string_scope. Open Scope list_scope. Open Scope nat_scope.

Section Slic.
Context (x : expansion).
(* extra_modules: riscv_slic.rs 205-237: the list [swi] given to [riscv_slic::codegen!], which makes the enumeration
   [slic::SoftwareInterrupt] and the table of handlers out of it (that macro is not in the repository). The first list is the
   hardware tasks' [binds], the second the dispatchers generated by [preprocess]; hart_id and device are left out. *)
Definition swi : list ident := map (fun t => hw_binds (snd t)) (ap_hw (x_app x)) ++ ap_disp (x_app x).
(* pre_init_checks: riscv_slic.rs 94-104: [let _ = slic::SoftwareInterrupt::d] *)
Definition checked : list ident := ap_disp (x_app x).
(* pre_init_enable_interrupts: riscv_slic.rs 108-123: set_priority(slic::SoftwareInterrupt::i, p), in this order *)
Definition prio_calls : list (ident * nat) :=
  map (fun i => (snd i, fst i)) (x_ints x) ++ map (fun t => (hw_binds (snd t), hw_prio (snd t))) (ap_hw (x_app x)).
Definition int_of (p : nat) : option ident := match find (fun i => fst i =? p) (x_ints x) with Some i => Some (snd i) | None => None end.
(* module.rs 112-118: the interrupt [spawn] and the waker of software task [n] pend; [None]: none. (The [expect] there: C89.) *)
Definition task_pends (n : ident) : option ident :=
  match iget (ap_sw (x_app x)) n with Some t => if 0 <? sw_prio t then int_of (sw_prio t) else None | None => None end.
(* async_dispatchers.rs 26-55: the interrupt the dispatcher of level [p] pends while it polls a task that was not finished *)
Definition dispatcher_pends : list (nat * option ident) :=
  map (fun c => (fst c, if 0 <? fst c then int_of (fst c) else None)) (y_channels (x_ana x)).
(* hardware_tasks.rs 19-49, async_dispatchers.rs 57-93: the exported handler functions *)
Definition handlers : list ident := map (fun v => fst (fst v)) (vectors x).

(** Everywhere the generated code names a software interrupt *)
Inductive names (i : ident) : Prop :=
| N_check : In i checked -> names i
| N_prio p : In (i, p) prio_calls -> names i
| N_spawn n : task_pends n = Some i -> names i
| N_dispatcher p : In (p, Some i) dispatcher_pends -> names i
| N_handler : In i handlers -> names i.
End Slic.
