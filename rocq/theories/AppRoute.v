(** Interrupt delivery on ESP32-C3 and ESP32-C6: from a source through the interrupt matrix to the generated handler. *)
From Verif Require Import Base LTS AppModel AppSpec AppRun AppStart.
Set Implicit Arguments.

(* esp32c3.rs 204-225 and esp32c6.rs 207-230, handler_config: the [export_name] attributes put on the handler of interrupt [i]
   (hardware_tasks.rs 26-36, async_dispatchers.rs 61-66). The other targets put none: the handler's own name is the vector. *)
Definition vector_symbol (id : nat) : string := append "interrupt" (digits (S id) id).
Definition handler_config (b : bkind) (x : expansion) (i : ident) : list string :=
  flat_map (fun r => match snd r with Some id => if ieq (fst (fst r)) i then [vector_symbol id] else [] | None => [] end) (routes b x).

(** What the hardware and the vector table of esp-riscv-rt do when source [i] is asserted: the matrix routes it to a CPU
    interrupt; if that one is enabled, it has the priority set for it, and the function linked as [interrupt<id>] runs. *)
Definition delivers (b : bkind) (x : expansion) (h : intc) (i : ident) (p : nat) (v : ident * nat * list ident) : Prop :=
  exists id, i_map h i = Some id /\ i_en h id = true /\ i_pri h id = p /\ In v (vectors x) /\ In (vector_symbol id) (handler_config b x (fst (fst v))).
