(** Model of the checks on the signatures of [init], [idle] and tasks.
    - rtic-macros/src/syntax/parse/util.rs 15-20 (abi_is_rust), 29-58 (check_fn_signature, check_foreign_fn_signature),
      281-316 (TaskType, parse_inputs), 318-324 (type_is_bottom), 326-371 (extract_init_resource_name_ident,
      type_is_init_return), 373-427 (is_valid_context, type_is_unit);
    - rtic-macros/src/syntax/parse/init.rs, idle.rs, hardware_task.rs, software_task.rs (parse, parse_foreign).
    Simplifications: patterns of arguments, attributes and bodies are left out; of a type the model keeps what the checks
    look at (the never type, tuples, paths with generic arguments, references with their lifetime); every other type is
    [TyOther].  [None] is a compile error. *)
From Verif Require Import Base AppModel.
Set Implicit Arguments.
Open Scope string_scope. Open Scope list_scope. Open Scope nat_scope.

(** Generic arguments of a path segment: none, [<..>], [(..)]. *)
Inductive garg := GLt (l : ident) | GOther.
Inductive pargs := PNone | PAngle (l : list garg) | PParen.
Record seg := mkSeg { sg_id : ident; sg_args : pargs }.
Inductive rty :=
| TyNever | TyTuple (l : list rty) | TyPath (qself leading : bool) (segs : list seg)
| TyRef (lt : option ident)                       (* &T, &mut T; [None] if the lifetime is left out *)
| TyOther (n : nat).
Inductive rret := RDefault | RType (t : rty).
Inductive fnarg := FReceiver | FTyped (t : rty).
Record fsig := mkSig {
  fs_private : bool; fs_const : bool; fs_async : bool; fs_abi : bool; fs_unsafe : bool;
  fs_generics : bool; fs_where : bool; fs_variadic : bool;
  fs_inputs : list fnarg; fs_output : rret }.

(* util.rs 38-47: check_fn_signature; 50-58: check_foreign_fn_signature is the same *)
Definition check_fn_signature (s : fsig) (allow_async : bool) : bool :=
  fs_private s && negb (fs_const s) && (negb (fs_async s) || allow_async) && negb (fs_abi s) && negb (fs_unsafe s)
  && negb (fs_generics s) && negb (fs_where s) && negb (fs_variadic s).

(* util.rs 281-288 *)
Inductive task_type := SoftwareExternNotBottom | Other.
(* util.rs 373-416: is_valid_context *)
Fixpoint same_idents (l : list seg) (names : list ident) : bool :=
  match l, names with
  | [], [] => true
  | s :: l', n :: names' => ieq (sg_id s) n && same_idents l' names'
  | _, _ => false
  end.
Definition allowed_lifetime (tt : task_type) (l : list seg) : bool :=
  match tt with
  | Other => true
  | SoftwareExternNotBottom =>
      match lasto l with
      | Some s => match sg_args s with
                  | PAngle [] => true
                  | PAngle [GLt n] => negb (ieq n "static")
                  | PAngle _ => false
                  | PNone => true
                  | PParen => false
                  end
      | None => false
      end
  end.
Definition is_valid_context (t : rty) (names : list ident) (tt : task_type) : bool :=
  match t with
  | TyPath false _ l => same_idents l names && allowed_lifetime tt l
  | _ => false
  end.
(* util.rs 290-316: parse_inputs; the further arguments, or the receiver found among them *)
Fixpoint all_typed (l : list fnarg) : option (list rty) :=
  match l with
  | [] => Some []
  | FTyped t :: l' => match all_typed l' with Some r => Some (t :: r) | None => None end
  | FReceiver :: _ => None
  end.
Definition parse_inputs (l : list fnarg) (name : ident) (tt : task_type) : option (option (list rty)) :=
  match l with
  | FTyped t :: l' => if is_valid_context t [name; "Context"] tt then Some (all_typed l') else None
  | _ => None
  end.
(* util.rs 318-324 *)
Definition type_is_bottom (r : rret) : bool := match r with RType TyNever => true | _ => false end.
(* util.rs 418-427 *)
Definition type_is_unit (r : rret) : bool := match r with RDefault => true | RType (TyTuple []) => true | _ => false end.
(* util.rs 326-342: the generic arguments must be absent; a qualified path is not refused *)
Definition extract_name (t : rty) : option ident :=
  match t with TyPath _ false [mkSeg n PNone] => Some n | _ => None end.
(* util.rs 345-371 *)
Definition type_is_init_return (r : rret) : option (ident * ident) :=
  match r with
  | RType (TyTuple [a; b]) => match extract_name a, extract_name b with Some x, Some y => Some (x, y) | _, _ => None end
  | _ => None
  end.

(** What is kept of a function. *)
Inductive fkind := FInit | FIdle | FHard | FSoft.
Record fparsed := mkFp { fp_inputs : list rty; fp_bottom : bool; fp_structs : option (ident * ident) }.
(* init.rs 18-53, 55-91 (parse and parse_foreign agree) *)
Definition parse_init (name : ident) (s : fsig) : option fparsed :=
  if check_fn_signature s false && (List.length (fs_inputs s) =? 1) then
    match type_is_init_return (fs_output s) with
    | Some st => match parse_inputs (fs_inputs s) name Other with
                 | Some (Some []) => Some (mkFp [] false (Some st))
                 | _ => None
                 end
    | None => None
    end
  else None.
(* idle.rs 17-45, 47-75 *)
Definition parse_idle_fn (name : ident) (s : fsig) : option fparsed :=
  if check_fn_signature s false && (List.length (fs_inputs s) =? 1) && type_is_bottom (fs_output s) then
    match parse_inputs (fs_inputs s) name Other with
    | Some (Some []) => Some (mkFp [] true None)
    | _ => None
    end
  else None.
(* hardware_task.rs 10-43, 46-80 *)
Definition parse_hard (name : ident) (s : fsig) : option fparsed :=
  if check_fn_signature s false && (List.length (fs_inputs s) =? 1) && type_is_unit (fs_output s) then
    match parse_inputs (fs_inputs s) name Other with
    | Some (Some []) => Some (mkFp [] false None)
    | _ => None
    end
  else None.
(* software_task.rs 10-45 (foreign = false), 48-91 (foreign = true) *)
Definition parse_soft (foreign : bool) (name : ident) (s : fsig) : option fparsed :=
  let is_bottom := type_is_bottom (fs_output s) in
  let tt := if foreign && negb is_bottom then SoftwareExternNotBottom else Other in
  if check_fn_signature s true && (type_is_unit (fs_output s) || is_bottom) && fs_async s then
    match parse_inputs (fs_inputs s) name tt with
    | Some (Some ins) => Some (mkFp ins is_bottom None)
    | _ => None
    end
  else None.
Definition fn_parse (k : fkind) (foreign : bool) (name : ident) (s : fsig) : option fparsed :=
  match k with
  | FInit => parse_init name s
  | FIdle => parse_idle_fn name s
  | FHard => parse_hard name s
  | FSoft => parse_soft foreign name s
  end.
