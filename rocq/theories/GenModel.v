(** Model of the program that the macro generates (rtic-macros/src/codegen), seen as a list of Rust items: which names each
    item defines, which names, fields and types of the user its parts mention, and whose [#[cfg]] attributes stand in front
    of the item or of the part.
    Left out: names outside of the application (crates [rtic] and [core], the device crate), names of lifetimes, local variables and function
    parameters, attributes other than [cfg], the code of the user (functions, items passed along), and the modifiers of items. *)
From Verif Require Import Base AppModel.
Set Implicit Arguments.
Open Scope string_scope. Open Scope list_scope. Open Scope nat_scope.

(** Names: a struct or module, a function or static, an item of a module, a field of a struct, an associated function. *)
Inductive name :=
| NT (s : ident)
| NV (s : ident)
| NIn (m s : ident)
| NF (st : name) (f : ident)
| NA (st : name) (f : ident).
(** Whose [#[cfg]] attributes: of a task, a field of the [#[shared]] or [#[local]] struct, a local resource declared by a function, of
    [init] and of [idle]. *)
Inductive cond := CTask (t : ident) | CShared (r : ident) | CLocal (r : ident) | CDecl (t r : ident) | CInit | CIdle.
(** A part of an item that may carry attributes of its own: a field, a statement, a method, the value of a field. *)
Record piece := mkPc { pc_if : list cond; pc_def : list name; pc_use : list name; pc_ty : list ty }.
(** An item; [g_make]: the item is a constructor, its body contains the struct literal of that struct. *)
Record gitem := mkG { g_if : list cond; g_def : list name; g_make : option name; g_body : list piece }.
Definition uses (l : list name) : piece := mkPc [] [] l [].

(** ** Names (codegen/util.rs) *)
Definition task_ident (t suffix : ident) : ident := internal (append t (append "_" suffix)).    (* 15-17: internal_task_ident *)
Definition local_ident (t : ident) : ident := internal (append t "LocalResources").             (* 115-130 *)
Definition shared_ident (t : ident) : ident := internal (append t "SharedResources").           (* 97-112 *)
Definition lock_ident (r : ident) : ident := append r "_that_needs_to_be_locked".               (* 151-153 *)
Definition zero_dispatcher : ident := "__rtic_internal_async_0_prio_dispatcher".                (* 155-157 *)
Definition rt_err : ident := "you_must_enable_the_rt_feature_for_the_pac_in_your_cargo_toml".   (* 160-165 *)
Definition context_of (t : ident) : list name := [NT t; NIn t "Context"; NA (NT (task_ident t "Context")) "new"].
Definition proxy (r : ident) : name := NIn "shared_resources" (lock_ident r).

Section Gen.
Context (b : bkind) (x : expansion).
Context (sn ln : ident).                 (* names of the [#[shared]] and the [#[local]] struct *)
Context (ext : ident -> bool).           (* functions declared in an [extern] block: defined elsewhere, brought in by the user *)
Context (dty : ident -> ident -> ty).    (* types of declared local resources *)
Context (core periph : bool).            (* the arguments [core] and [peripherals] *)
Notation a := (x_app x).
Notation y := (x_ana x).
Definition user_fn (n : ident) : list name := if ext n then [] else [NV n].
Definition sh_ty (r : ident) : list ty := match iget (ap_shared a) r with Some s => [sr_ty s] | None => [] end.
Definition lo_ty (r : ident) : list ty := match iget (ap_local a) r with Some t => [t] | None => [] end.
Definition is_lock_free (r : ident) : bool := match iget (ap_shared a) r with Some s => sr_lock_free s | None => false end.

(** ** local_resources_struct.rs 11-93 *)
(* 30-36: whose attributes and which type; 44-48: which static *)
Definition lr_cond (t : ident) (l : ident * tlocal) : list cond := match snd l with External => [CLocal (fst l)] | Declared => [CDecl t (fst l)] end.
Definition lr_ty (t : ident) (l : ident * tlocal) : list ty := match snd l with External => lo_ty (fst l) | Declared => [dty t (fst l)] end.
Definition lr_static (t : ident) (l : ident * tlocal) : ident := match snd l with External => local_static (fst l) | Declared => declared_static t (fst l) end.
(* 50-54, 70-73, 77-86: the struct *)
Definition local_struct (t : ident) (lo : list (ident * tlocal)) : gitem :=
  mkG [] [NT (local_ident t)] None
    (map (fun l => mkPc (lr_cond t l) [NF (NT (local_ident t)) (fst l)] [] (lr_ty t l)) lo ++
     [mkPc [] [NF (NT (local_ident t)) "__rtic_internal_marker"] [] []]).
(* 56-67, 75, 88-98: its constructor *)
Definition local_ctor (t : ident) (lo : list (ident * tlocal)) : gitem :=
  mkG [] [NA (NT (local_ident t)) "new"] (Some (NT (local_ident t)))
    (uses [NT (local_ident t)] ::
     map (fun l => mkPc (lr_cond t l) [] [NF (NT (local_ident t)) (fst l); NV (lr_static t l)] []) lo ++
     [uses [NF (NT (local_ident t)) "__rtic_internal_marker"]]).

(** ** shared_resources_struct.rs 8-121 *)
(* 43-68: the type of a field, 64-88: its value *)
Definition sr_field (t : ident) (s : ident * access) : piece :=
  if is_lock_free (fst s) || negb (is_excl (snd s))
  then mkPc [CShared (fst s)] [NF (NT (shared_ident t)) (fst s)] [] (sh_ty (fst s))
  else mkPc [CShared (fst s)] [NF (NT (shared_ident t)) (fst s)] [NT "shared_resources"; proxy (fst s)] [].
Definition sr_value (t : ident) (s : ident * access) : piece :=
  if is_lock_free (fst s) || negb (is_excl (snd s))
  then mkPc [CShared (fst s)] [] [NF (NT (shared_ident t)) (fst s); NV (shared_static (fst s))] []
  else mkPc [CShared (fst s)] [] [NF (NT (shared_ident t)) (fst s); NT "shared_resources"; proxy (fst s); NA (proxy (fst s)) "new"] [].
(* 91-109 *)
Definition shared_struct (t : ident) (sh : list (ident * access)) : gitem :=
  mkG [] [NT (shared_ident t)] None (map (sr_field t) sh ++ [mkPc [] [NF (NT (shared_ident t)) "__rtic_internal_marker"] [] []]).
(* 111-121 *)
Definition shared_ctor (t : ident) (sh : list (ident * access)) : gitem :=
  mkG [] [NA (NT (shared_ident t)) "new"] (Some (NT (shared_ident t)))
    (uses [NT (shared_ident t)] :: map (sr_value t) sh ++ [uses [NF (NT (shared_ident t)) "__rtic_internal_marker"]]).
(* hardware_tasks.rs 55-73, software_tasks.rs 18-34, idle.rs 22-35, init.rs 91-97: only when the list is not empty *)
Definition res_items (t : ident) (ar : args) : list gitem :=
  match a_local ar with [] => [] | lo => [local_struct t lo; local_ctor t lo] end ++
  match a_shared ar with [] => [] | sh => [shared_struct t sh; shared_ctor t sh] end.

(** ** module.rs 9-322 *)
Inductive ctxt := XInit | XIdle | XHard | XSoft (p : nat) (inputs : list ty) (local_task : bool).
(* 93-98: the attributes of the task *)
Definition ctx_cond (t : ident) (k : ctxt) : list cond := match k with XHard | XSoft _ _ _ => [CTask t] | _ => [] end.
Definition ctx_name (t : ident) : name := NT (task_ident t "Context").
Definition init_fields (k : ctxt) : list ident :=
  match k with XInit => (if core then ["core"] else []) ++ (if periph then ["device"] else []) ++ ["cs"] | _ => [] end.
(* 216-220: local tasks of the same priority *)
Definition locals_at (p : nat) : list (ident * swtask) := filter (fun u => sw_local_task (snd u) && (sw_prio (snd u) =? p)) (ap_sw a).
Definition has_spawner (k : ctxt) : bool := match k with XSoft p _ _ => match locals_at p with [] => false | _ => true end | _ => false end.
(* 20-84, 222-227: fields of the context with what they mention; 27, 37, 46, 65, 83, 253: their values *)
Definition ctx_fields (t : ident) (k : ctxt) (ar : args) : list piece :=
  map (fun f => mkPc [] [NF (ctx_name t) f] [] []) (init_fields k) ++
  match a_local ar with [] => [] | _ => [mkPc [] [NF (ctx_name t) "local"] [NT t; NIn t "LocalResources"] []] end ++
  match a_shared ar with [] => [] | _ => [mkPc [] [NF (ctx_name t) "shared"] [NT t; NIn t "SharedResources"] []] end ++
  (if has_spawner k then [mkPc [] [NF (ctx_name t) "local_spawner"] [NT (task_ident t "LocalSpawner")] []] else []).
Definition ctx_values (t : ident) (k : ctxt) (ar : args) : list piece :=
  map (fun f => uses [NF (ctx_name t) f]) (init_fields k) ++
  match a_local ar with [] => [] | _ => [uses [NF (ctx_name t) "local"; NT t; NIn t "LocalResources"; NA (NT (local_ident t)) "new"]] end ++
  match a_shared ar with [] => [] | _ => [uses [NF (ctx_name t) "shared"; NT t; NIn t "SharedResources"; NA (NT (shared_ident t)) "new"]] end ++
  (if has_spawner k then [uses [NF (ctx_name t) "local_spawner"; NT (task_ident t "LocalSpawner")]] else []).
(* 276-302 *)
Definition ctx_items (t : ident) (k : ctxt) (ar : args) : list gitem :=
  [mkG (ctx_cond t k) [ctx_name t] None (mkPc [] [NF (ctx_name t) "__rtic_internal_p"] [] [] :: ctx_fields t k ar);
   mkG (ctx_cond t k) [NA (ctx_name t) "new"] (Some (ctx_name t)) (uses [ctx_name t; NF (ctx_name t) "__rtic_internal_p"] :: ctx_values t k ar)].
(* 158-182: spawn, 185-200: waker *)
Definition spawn_items (t : ident) (inputs : list ty) : list gitem :=
  [mkG [CTask t] [NV (task_ident t "spawn")] None [mkPc [] [] (user_fn t ++ NV (task_ident t "EXEC") :: context_of t) inputs];
   mkG [CTask t] [NV (task_ident t "waker")] None [uses (user_fn t ++ [NV (task_ident t "EXEC")])]].
(* 222-265: the struct LocalSpawner and its methods, each under the attributes of the task it spawns *)
Definition spawner_items (t : ident) (p : nat) : list gitem :=
  match locals_at p with
  | [] => []
  | l => [mkG [] [NT (task_ident t "LocalSpawner")] None [];
          mkG [] [] None (uses [NT (task_ident t "LocalSpawner")] ::
            map (fun u => mkPc [CTask (fst u)] [NA (NT (task_ident t "LocalSpawner")) (fst u)] [NV (task_ident (fst u) "spawn")] (sw_inputs (snd u))) l)]
  end.
(* the items of the module: 56-59, 70-73, 202-208, 268-272, 304-308; the module itself: 313-319, under the attributes of a software task only *)
Definition mod_cond (t : ident) (k : ctxt) : list cond := match k with XSoft _ _ _ => [CTask t] | _ => [] end.
Definition mod_item (t : ident) (k : ctxt) (ar : args) : gitem :=
  mkG (mod_cond t k) [NT t] None
    (match a_local ar with [] => [] | _ => [mkPc [] [NIn t "LocalResources"] [NT (local_ident t)] []] end ++
     match a_shared ar with [] => [] | _ => [mkPc [] [NIn t "SharedResources"] [NT (shared_ident t)] []] end ++
     match k with
     | XSoft _ _ lt => (if lt then [] else [mkPc [CTask t] [NIn t "spawn"] [NV (task_ident t "spawn")] []]) ++ [mkPc [CTask t] [NIn t "waker"] [NV (task_ident t "waker")] []]
     | _ => []
     end ++ [mkPc (ctx_cond t k) [NIn t "Context"] [ctx_name t] []]).
Definition module (t : ident) (k : ctxt) (ar : args) : list gitem :=
  match k with XSoft p inputs _ => spawn_items t inputs ++ spawner_items t p | _ => [] end ++ ctx_items t k ar ++ [mod_item t k ar].
(* the function of the user, written again with its attributes: init.rs 75-87, idle.rs 39-52, hardware_tasks.rs 81-96, software_tasks.rs 36-65 *)
Definition fn_cond (t : ident) (k : ctxt) : list cond := match k with XInit => [CInit] | XIdle => [CIdle] | _ => [CTask t] end.
Definition fn_item (t : ident) (k : ctxt) : list gitem :=
  if ext t then [] else
  [mkG (fn_cond t k) [NV t] None
     [mkPc [] [] ([NT t; NIn t "Context"] ++ match k with XInit => [NT sn; NT ln] | _ => [] end) (match k with XSoft _ inputs _ => inputs | _ => [] end)]].
Definition fn_items (t : ident) (k : ctxt) (ar : args) : list gitem := res_items t ar ++ module t k ar ++ fn_item t k.

(** ** init.rs 11-109 *)
Definition init_items : list gitem :=
  [mkG [] [NT sn] None (map (fun r => mkPc [CShared (fst r)] [NF (NT sn) (fst r)] [] [sr_ty (snd r)]) (ap_shared a));    (* 25-38, 56-60 *)
   mkG [] [NT ln] None (map (fun r => mkPc [CLocal (fst r)] [NF (NT ln) (fst r)] [] [snd r]) (ap_local a))] ++            (* 40-53, 62-65 *)
  fn_items (fst (ap_init a)) XInit (mkArgs [] (snd (ap_init a))).
(** ** idle.rs 10-68 *)
Definition idle_items : list gitem := match ap_idle a with Some (n, ar) => fn_items n XIdle ar | None => [] end.
(** ** hardware_tasks.rs 14-106: the handler and the rest *)
Definition handler (t : ident) (h : hwtask) : gitem := mkG [CTask t] [NV (hw_binds h)] None [uses (context_of t ++ user_fn t)].
Definition hw_items : list gitem := flat_map (fun t => handler (fst t) (snd t) :: fn_items (fst t) XHard (hw_args (snd t))) (ap_hw a).
(** ** software_tasks.rs 9-78 *)
Definition soft (t : swtask) : ctxt := XSoft (sw_prio t) (sw_inputs t) (sw_local_task t).
Definition sw_items : list gitem := flat_map (fun t => fn_items (fst t) (soft (snd t)) (sw_args (snd t))) (ap_sw a).
(** ** shared_resources.rs 9-122 *)
(* 44-53: the static; 62-85: the proxy; bindings: impl_mutex *)
Definition shared_static_item (r : ident * sres) : gitem := mkG [CShared (fst r)] [NV (shared_static (fst r))] None [mkPc [] [] [] [sr_ty (snd r)]].
Definition mutex_item (r : ident * sres) : list gitem :=
  if sr_lock_free (snd r) then [] else
  [mkG [CShared (fst r)] [NA (proxy (fst r)) "lock"] None [mkPc [] [] [NT "shared_resources"; proxy (fst r); NV (shared_static (fst r))] [sr_ty (snd r)]]].
Definition proxy_pieces (r : ident * sres) : list piece :=
  if sr_lock_free (snd r) then [] else
  [mkPc [CShared (fst r)] [proxy (fst r)] [] []; mkPc [CShared (fst r)] [NA (proxy (fst r)) "new"] [proxy (fst r)] []].
(* 110-121: the module, if there is something in it *)
Definition shared_items : list gitem :=
  flat_map (fun r => shared_static_item r :: mutex_item r) (ap_shared a) ++
  match flat_map proxy_pieces (ap_shared a) with [] => [] | l => [mkG [] [NT "shared_resources"] None l] end.
(** ** local_resources.rs 9-78 *)
Definition local_items : list gitem :=
  map (fun r => mkG [CLocal (fst r)] [NV (local_static (fst r))] None [mkPc [] [] [] [snd r]]) (ap_local a) ++
  map (fun d => mkG [CDecl (fst d) (snd d)] [NV (declared_static (fst d) (snd d))] None [mkPc [] [] [] [dty (fst d) (snd d)]]) (declared_locals a).
(** ** async_dispatchers.rs 13-97 *)
(* 20-22 and util.rs 168-185: executor_decl *)
Definition exec_item (t : ident) : gitem := mkG [CTask t] [NV (task_ident t "EXEC")] None [uses (user_fn t)].
(* 40-54: the statements; 55-92: the handler *)
Definition disp_name (p : nat) : ident :=
  if 0 <? p then match find (fun i => fst i =? p) (x_ints x) with Some i => snd i | None => "" end else zero_dispatcher.
Definition disp_item (c : nat * list ident) : gitem :=
  mkG [] [NV (disp_name (fst c))] None (map (fun t => mkPc [CTask t] [] (user_fn t ++ [NV (task_ident t "EXEC")]) []) (snd c)).
Definition disp_items : list gitem := map (fun t => exec_item (fst t)) (ap_sw a) ++ map disp_item (y_channels y).
(** ** main.rs 10-63 *)
Definition post_init : list piece :=                                                          (* post_init.rs 6-49 *)
  map (fun r => mkPc [CShared (fst r)] [] [NV (shared_static (fst r)); NF (NT sn) (fst r)] []) (filter (fun r => mem (fst r) (y_shared y)) (ap_shared a)) ++
  map (fun r => mkPc [CLocal (fst r)] [] [NV (local_static (fst r)); NF (NT ln) (fst r)] []) (filter (fun r => mem (fst r) (y_local y)) (ap_local a)).
Definition has_zero : bool := existsb (fun c => fst c =? 0) (y_channels y).
Definition call_idle : list name :=                                                           (* 19-27 *)
  match ap_idle a with
  | Some (n, _) => user_fn n ++ context_of n
  | None => if has_zero then [NV zero_dispatcher] else []
  end.
Definition main_item : gitem :=
  mkG [] [NV "main"] None
    ([mkPc [] [] [] (y_send y ++ y_sync y)] ++                                                (* assertions.rs 9-24: no attributes *)
     (match to_configure a (x_ints x) with [] => [] | _ => [uses [NT (match b with Slic => "slic" | _ => rt_err end)]] end) ++   (* pre_init.rs *)
     [uses (user_fn (fst (ap_init a)) ++ context_of (fst (ap_init a)))] ++ post_init ++ [uses call_idle]).
(** ** codegen.rs 34-100; extra_modules of riscv_slic.rs 205-265 *)
Definition fixed_items : list gitem :=
  [mkG [] [NT rt_err] None []; mkG [] [NV "RTIC_ASYNC_MAX_LOGICAL_PRIO"] None []] ++
  match b with Slic => [mkG [] [NT "riscv_slic"] None []; mkG [] [NT "slic"] None []] | _ => [] end.
Definition program : list gitem :=
  fixed_items ++ init_items ++ idle_items ++ hw_items ++ sw_items ++ shared_items ++ local_items ++ disp_items ++ [main_item].

(** ** What rustc keeps *)
Context (on : cond -> bool).             (* do the attributes hold? *)
Definition holds (c : list cond) : bool := forallb on c.
Definition kept_body (g : gitem) : list piece := filter (fun p => holds (pc_if p)) (g_body g).
Definition compiled : list gitem := map (fun g => mkG [] (g_def g) (g_make g) (kept_body g)) (filter (fun g => holds (g_if g)) program).
Definition defs (g : gitem) : list name := g_def g ++ flat_map pc_def (g_body g).
Definition uses_of (g : gitem) : list name := flat_map pc_use (g_body g).
Definition types_of (g : gitem) : list ty := flat_map pc_ty (g_body g).
End Gen.
