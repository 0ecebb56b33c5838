(** Model of the generated [main]: start-up of an accepted application.
    rtic-macros/src/codegen/main.rs 10-62, pre_init.rs 9-29, post_init.rs 6-49. *)
From Verif Require Import Base LTS AppModel.
Set Implicit Arguments.

(** The statements of [main], in order. *)
Inductive stmt :=
| SDisable                         (* pre_init.rs 13: interrupt::disable() *)
| SConfigure (i : ident) (p : nat) (k : option nat) (* pre_init.rs 25: set the priority of [i] and unmask it; ESP32: the CPU interrupt it is routed to *)
| SInit                            (* main.rs 54: let (shared_resources, local_resources) = init(..) *)
| SWriteShared (n : ident)         (* post_init.rs 10-24 *)
| SWriteLocal (n : ident)          (* post_init.rs 27-41 *)
| SEnable                          (* post_init.rs 44: interrupt::enable() *)
| SThread.                         (* main.rs 17-25, 59: idle, or the dispatcher of priority 0, or loop *)
(* esp32c3.rs 87, 93-99: CPU interrupts 16, 17, ... without an upper limit; esp32c6.rs 20, 97-104: 20 to 31, one by one.
   The other targets have no such step. *)
Definition cpu_id (b : bkind) (k : nat) : option nat := match b with Esp32c3 => Some (16 + k) | Esp32c6 => Some (20 + k) | _ => None end.
(* The interrupts in the order they are configured, with the CPU interrupt of each. *)
Definition routes (b : bkind) (x : expansion) : list (ident * nat * option nat) :=
  combine (configured b (x_app x) (x_ints x)) (map (cpu_id b) (seq 0 (length (configured b (x_app x) (x_ints x))))).
Definition main_code (b : bkind) (x : expansion) : list stmt :=
  [SDisable] ++ map (fun c => SConfigure (fst (fst c)) (snd (fst c)) (snd c)) (routes b x) ++ [SInit] ++
  map (fun r => SWriteShared (fst r)) (filter (fun r => mem (fst r) (y_shared (x_ana x))) (ap_shared (x_app x))) ++
  map (fun r => SWriteLocal (fst r)) (filter (fun r => mem (fst r) (y_local (x_ana x))) (ap_local (x_app x))) ++
  [SEnable; SThread].

(** The interrupt matrix of an ESP32: the CPU interrupt each source is routed to, and the priority and the enable bit of each of the
    32 CPU interrupts. *)
Record intc := mkIc { i_map : ident -> option nat; i_pri : nat -> nat; i_en : nat -> bool }.
Definition ic_reset : intc := mkIc (fun _ => None) (fun _ => 0) (fun _ => false).
(* rtic/src/export/riscv_esp32c3.rs 130-147, riscv_esp32c6.rs 134-151: enable(int, prio, cpu_int_id).  The priority registers
   are an array of 32 and the enable bit is [1 << cpu_int_id] in a u32: for ids from 32 on the call panics. *)
Definition ic_enable (i : ident) (p id : nat) (h : intc) : intc :=
  mkIc (fun j => if ieq i j then Some id else i_map h j) (fun k => if Nat.eqb id k then p else i_pri h k) (fun k => Nat.eqb id k || i_en h k).
Definition ic_config (i : ident) (p : nat) (k : option nat) (h : intc) : option intc :=
  match k with None => Some h | Some id => if id <? 32 then Some (ic_enable i p id h) else None end.

(** What [init] returned for a field of the [#[shared]] / [#[local]] struct. *)
Inductive value := VShared (n : ident) | VLocal (n : ident).
(** Start-up state: statements left, the global interrupt flag, interrupts that may occur (device interrupts
    unmasked, exceptions switched on), the priorities configured (last first), whether [init] has returned, the statics written (last
    first), the interrupt matrix (ESP32). *)
Record sst := mkS { t_pc : list stmt; t_on : bool; t_live : list ident; t_prio : list (ident * nat); t_inited : bool; t_mem : list (ident * value); t_hw : intc }.
(** After reset no interrupt source is switched on; the global flag is in any state. *)
Definition s_init (b : bkind) (x : expansion) (on : bool) : sst := mkS (main_code b x) on [] [] false [] ic_reset.

(** [TMain]: main executes its next statement ([init] runs with [TUser] steps before it returns; thread mode goes on for ever).
    [TUser i]: the code of [init] switches on an interrupt source.  [TIrq i]: interrupt [i] is taken and
    its handler runs; when is up to the hardware, as long as the global flag is on and [i] is live. *)
Inductive slabel := TMain | TUser (i : ident) | TIrq (i : ident).
Definition sstep (x : expansion) (s : sst) (l : slabel) : option sst :=
  match l with
  | TMain =>
      match t_pc s with
      | SDisable :: pc => Some (mkS pc false (t_live s) (t_prio s) (t_inited s) (t_mem s) (t_hw s))
      | SConfigure i p k :: pc =>
          match ic_config i p k (t_hw s) with
          | Some h => Some (mkS pc (t_on s) (i :: t_live s) ((i, p) :: t_prio s) (t_inited s) (t_mem s) h)
          | None => None   (* panic *)
          end
      | SInit :: pc => Some (mkS pc (t_on s) (t_live s) (t_prio s) true (t_mem s) (t_hw s))
      | SWriteShared n :: pc => Some (mkS pc (t_on s) (t_live s) (t_prio s) (t_inited s) ((shared_static n, VShared n) :: t_mem s) (t_hw s))
      | SWriteLocal n :: pc => Some (mkS pc (t_on s) (t_live s) (t_prio s) (t_inited s) ((local_static n, VLocal n) :: t_mem s) (t_hw s))
      | SEnable :: pc => Some (mkS pc true (t_live s) (t_prio s) (t_inited s) (t_mem s) (t_hw s))
      | SThread :: pc => Some s
      | [] => None
      end
  | TUser i => match t_pc s with SInit :: _ => Some (mkS (t_pc s) (t_on s) (i :: t_live s) (t_prio s) (t_inited s) (t_mem s) (t_hw s)) | _ => None end
  | TIrq i => if t_on s && mem i (t_live s) then Some s else None
  end.
Definition sreach b x s : Prop := exists on, reach (sstep x) (s_init b x on) s.
(** The statics the code of a task refers to and what they must hold: codegen/shared_resources_struct.rs 26-88,
    local_resources_struct.rs 25-66. *)
Definition task_statics (x : expansion) (ar : args) : list (ident * value) :=
  map (fun u => (shared_static (fst u), VShared (fst u))) (a_shared ar) ++
  map (fun n => (local_static n, VLocal n)) (externals (a_local ar)).
(** Value a static holds. *)
Definition holds_val (s : sst) (n : ident) : option value := iget (t_mem s) n.
