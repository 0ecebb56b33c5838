(** Model of the arguments of [#[app(..)]], from tokens, and of the generated code that depends on them.
    - rtic-macros/src/syntax/parse/app.rs 24-168 (AppArgs::parse);
    - rtic-macros/src/syntax/backend/{cortex,esp32c3,esp32c6,riscv_slic}.rs (BackendArgs::parse);
    - rtic-macros/src/codegen/pre_init.rs 8-26, main.rs 30-34 and 47-54, module.rs 20-49, 51-84, 98-103, 215-224, 257,
      277-299 (contexts), async_dispatchers.rs 20-93, bindings/cortex.rs 204-265, bindings/riscv_slic.rs 66-68, 152-157.
    Simplifications as in AttrModel.v; a path has no generic arguments; an element of [dispatchers] is a path with
    attributes in front, anything else is refused. *)
From Verif Require Import Base AppModel AttrModel SigModel RefModel.
Set Implicit Arguments.
Open Scope string_scope. Open Scope list_scope. Open Scope nat_scope.

(** A path: does it start with [::], and its segments. *)
Definition path : Type := bool * list ident.
(** syn: Path::parse_mod_style-like loop: an identifier, then, as long as [::] follows, another one. *)
Fixpoint rd_segs (l : list tok) : option (list ident * list tok) :=
  match l with
  | TId s :: TSep :: l' => match rd_segs l' with Some (r, l'') => Some (s :: r, l'') | None => None end
  | TId s :: l' => Some ([s], l')
  | _ => None
  end.
Definition rd_path (l : list tok) : option (path * list tok) :=
  match l with
  | TSep :: l' => match rd_segs l' with Some (r, l'') => Some ((true, r), l'') | None => None end
  | _ => match rd_segs l with Some (r, l'') => Some ((false, r), l'') | None => None end
  end.

(** app.rs 86-118: the elements of [dispatchers = [..]], with the dispatchers listed so far *)
Fixpoint rd_disp (fuel : nat) (d : list (ident * list attr)) (l : list tok) : option (list (ident * list attr)) :=
  match fuel with
  | 0 => None
  | S fuel =>
      match l with
      | [] => Some d
      | _ =>
          let (at_, l1) := p_attrs l in
          match rd_path l1 with
          | Some ((false, [s]), l2) =>                                                    (* 92-102: an identifier *)
              if ihas d s then None else                                                  (* 103-108 *)
              let d' := iinsert d s at_ in                                                (* 109-112 *)
              match l2 with
              | [] => Some d'
              | TComma :: l3 => rd_disp fuel d' l3
              | _ => None
              end
          | _ => None
          end
      end
  end.

(** app.rs 27-32: the arguments seen and their values so far *)
Record appst := mkAs {
  as_seen : list ident; as_device : option path; as_core : bool; as_periph : bool;
  as_disp : list (ident * list attr); as_backend : option ident }.
Definition appst0 := mkAs [] None true true [] None.
(** app.rs 34-151.  [bk]: does the backend take a configuration?  Only the SLIC one with the CLINT does, an identifier. *)
Fixpoint rd_app (fuel : nat) (bk : bool) (g : appst) (l : list tok) : option appst :=
  match fuel with
  | 0 => None
  | S fuel =>
      match l with
      | [] => Some g                                                                      (* 35-37 *)
      | TId s :: TEq :: l1 =>                                                             (* 40-41 *)
          if mem s (as_seen g) then None else                                             (* 43-48 *)
          let seen := set_insert (as_seen g) s in                                         (* 50 *)
          match (if ieq s "device" then                                                   (* 55-64 *)
                   match rd_path l1 with Some (p, l2) => Some (mkAs seen (Some p) (as_core g) (as_periph g) (as_disp g) (as_backend g), l2) | None => None end
                 else if ieq s "core" then                                                (* 66-75 *)
                   match l1 with TBool b :: l2 => Some (mkAs seen (as_device g) b (as_periph g) (as_disp g) (as_backend g), l2) | _ => None end
                 else if ieq s "peripherals" then                                         (* 77-86 *)
                   match l1 with TBool b :: l2 => Some (mkAs seen (as_device g) (as_core g) b (as_disp g) (as_backend g), l2) | _ => None end
                 else if ieq s "dispatchers" then                                         (* 88-128 *)
                   match l1 with
                   | TGroup r :: l2 => match rd_disp (S (List.length r)) (as_disp g) r with Some d => Some (mkAs seen (as_device g) (as_core g) (as_periph g) d (as_backend g), l2) | None => None end
                   | _ => None
                   end
                 else if ieq s "backend" then                                             (* 130-139 *)
                   match l1 with TId i :: l2 => if bk then Some (mkAs seen (as_device g) (as_core g) (as_periph g) (as_disp g) (Some i), l2) else None | _ => None end
                 else None) with                                                          (* 141-143 *)
          | None => None
          | Some (g', []) => Some g'                                                      (* 146-148 *)
          | Some (g', TComma :: l') => rd_app fuel bk g' l'                               (* 151 *)
          | Some _ => None
          end
      | _ => None
      end
  end.
(** ast.rs: AppArgs; app.rs 154-166: [device] must be given *)
Record appargs := mkAA { aa_device : path; aa_core : bool; aa_periph : bool; aa_disp : list (ident * list attr); aa_backend : option ident }.
Definition parse_args (bk : bool) (l : list tok) : option appargs :=
  match rd_app (S (List.length l)) bk appst0 l with
  | Some g => match as_device g with Some d => Some (mkAA d (as_core g) (as_periph g) (as_disp g) (as_backend g)) | None => None end
  | None => None
  end.

(** riscv_slic.rs 67: with SLIC [core] is switched off *)
Definition core_after (b : bkind) (a : appargs) : bool := match b with Slic => false | _ => aa_core a end.

(** The whole macro, from tokens.  riscv_slic.rs 152-157: the CLINT needs its configuration. *)
Definition expand_args (b : bkind) (bk : bool) (toks : list tok) (l : list titem) : option (appargs * expansion) :=
  match parse_args bk toks with
  | None => None
  | Some aa => match expand_tokens b (map fst (aa_disp aa)) l with
               | None => None
               | Some x => if bk && negb (is_some (aa_backend aa)) then None else Some (aa, x)
               end
  end.

(** ** The contexts (module.rs) *)
Inductive field := FCore | FDevice (p : path) | FCs | FLocal | FShared | FSpawner.
Section Gen.
Context (b : bkind) (aa : appargs) (x : expansion).
Definition core : bool := core_after b aa.
Definition nonempty {X} (l : list X) : bool := match l with [] => false | _ => true end.
(* module.rs 216-220: local tasks of the same priority *)
Definition local_tasks_at (p : nat) : list (ident * swtask) := filter (fun t => sw_local_task (snd t) && (sw_prio (snd t) =? p)) (ap_sw (x_app x)).
(** module.rs: the fields of the context of function [n]: 20-49 (init), 51-66 ([local]), 68-84 ([shared]), 222-227 *)
Definition ctx_fields (n : ident) : list field :=
  match ctx_of (x_app x) n with
  | None => []
  | Some (k, p, ar) =>
      match k with
      | FInit => (if core then [FCore] else []) ++ (if aa_periph aa then [FDevice (aa_device aa)] else []) ++ [FCs]
      | _ => []
      end ++ (if nonempty (a_local ar) then [FLocal] else []) ++ (if nonempty (a_shared ar) then [FShared] else []) ++
      match k with FSoft => if nonempty (local_tasks_at p) then [FSpawner] else [] | _ => [] end
  end.
(** the fields given a value in [Context::new]: 27, 37-39, 46, 65, 83, 253 *)
Definition ctx_values (n : ident) : list field :=
  match ctx_of (x_app x) n with
  | None => []
  | Some (k, p, ar) =>
      match k with
      | FInit => (if core then [FCore] else []) ++ (if aa_periph aa then [FDevice (aa_device aa)] else []) ++ [FCs]
      | _ => []
      end ++ (if nonempty (a_local ar) then [FLocal] else []) ++ (if nonempty (a_shared ar) then [FShared] else []) ++
      match k with FSoft => if nonempty (local_tasks_at p) then [FSpawner] else [] | _ => [] end
  end.
(** does [Context::new] have the parameter [core]: 98-103, 291; is it called with an argument: main.rs 21, 30-34, 54,
    hardware_tasks.rs 48, module.rs 139-152 *)
Definition new_param (n : ident) : bool := match ctx_of (x_app x) n with Some (FInit, _, _) => core | _ => false end.
Definition new_arg (n : ident) : bool := match ctx_of (x_app x) n with Some (FInit, _, _) => core | _ => false end.
(** the variable [core] of main: declared (pre_init.rs 14-19); used: given to init (main.rs 30-34), and to set priorities
    (cortex.rs 230-235 and 258-261: [core.NVIC], [core.SCB]) *)
Definition declares_core : bool := core.
Definition uses_core : bool :=
  core || match b with Cortex _ => nonempty (configured b (x_app x) (x_ints x)) | _ => false end.

(** ** Dispatchers and their attributes *)
(* Generated items: the handler of a dispatcher with the attributes in front of it (async_dispatchers.rs 55-78); the
   start-up code that enables it (pre_init_enable_interrupts) and the [spawn] of a task that pends it (module.rs 108-112),
   both without attributes. *)
Inductive gitem := GHandler (d : ident) (at_ : list attr) | GEnable (d : ident) | GPend (t d : ident).
Definition disp_attrs (d : ident) : list attr := match b with Slic => [] | _ => match iget (aa_disp aa) d with Some a => a | None => [] end end.
Definition int_of (p : nat) : option ident := match find (fun i => fst i =? p) (x_ints x) with Some i => Some (snd i) | None => None end.
Definition gitems : list gitem :=
  map (fun i => GHandler (snd i) (disp_attrs (snd i))) (x_ints x) ++
  map (fun i => GEnable (snd i)) (x_ints x) ++
  flat_map (fun t => match int_of (sw_prio (snd t)) with Some d => [GPend (fst t) d] | None => [] end) (ap_sw (x_app x)).
(** What is left when the conditions of [cfg] attributes are false. *)
Definition kept (g : gitem) : bool := match g with GHandler _ a => negb (existsb (fun y => match y with ACfg => true | _ => false end) a) | _ => true end.
Definition compiled (on : bool) : list gitem := filter (fun g => on || kept g) gitems.
End Gen.
