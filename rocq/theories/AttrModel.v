(** Model of the parsing of the macro's attributes, from tokens: [#[task(..)]], [#[idle(..)]], [#[init(..)]] and the
    resource lists in them.
    - rtic-macros/src/syntax/parse.rs 72-345 (init_args, idle_args, task_args);
    - rtic-macros/src/syntax/parse/util.rs 66-143 (filter_attributes, parse_shared_resources,
      extract_resource_name_ident), 145-279 (parse_local_resources);
    - rtic-macros/src/syntax/parse/app.rs 224-268 (which tokens are parsed).
    Simplifications: a type, an initial value and an outer attribute are one token each; a path is identifiers joined by
    [::] ([TSep]); literals other than integers and booleans, generic arguments of paths and other expressions are left
    out (the parser refuses them in these places); [None] is any compile error.  The result is a [rawtask] of
    AppModel.v, whose [task_args] does the rest (repeated names in a list, empty [local] list, defaults, priority 0 of
    hardware tasks), plus the attributes kept with the local resources. *)
From Verif Require Import Base AppModel.
Set Implicit Arguments.
Open Scope string_scope. Open Scope list_scope. Open Scope nat_scope.

(** An outer attribute [#[..]]: [cfg], [doc] or something else. *)
Inductive attr := ACfg | ADoc | AOther.
Inductive tok :=
| TId (s : ident) | TEq | TComma | TColon | TAmp | TMut | TSep
| TInt (v : nat) (suffix : bool) | TBool (b : bool)
| TAttr (a : attr) | TTy (supported : bool) | TExpr
| TGroup (l : list tok).                                (* [ .. ] *)

(** Leading outer attributes (syn: Attribute::parse_outer). *)
Fixpoint p_attrs (l : list tok) : list attr * list tok :=
  match l with
  | TAttr a :: l' => let (x, r) := p_attrs l' in (a :: x, r)
  | _ => ([], l)
  end.
(** A path, of which extract_resource_name_ident (util.rs 131-143) accepts a single identifier. *)
Definition p_name (l : list tok) : option (ident * list tok) :=
  match l with
  | TId _ :: TSep :: _ => None
  | TId s :: l' => Some (s, l')
  | _ => None
  end.

(** util.rs 94-129: parse_shared_resources, inside the brackets: [Punctuated::parse_terminated] of expressions, each a
    name or a reference to one; attributes in front of an expression belong to the expression and are not looked at *)
Fixpoint rd_shared (fuel : nat) (l : list tok) : option (list (ident * access)) :=
  match fuel with
  | 0 => None
  | S fuel =>
      match l with
      | [] => Some []
      | _ =>
          let l1 := snd (p_attrs l) in
          match (match l1 with
                 | TAmp :: TMut :: _ => None
                 | TAmp :: l2 => match p_name (snd (p_attrs l2)) with Some (s, l3) => Some (s, SharedRef, l3) | None => None end
                 | _ => match p_name l1 with Some (s, l3) => Some (s, Exclusive, l3) | None => None end
                 end) with
          | None => None
          | Some (s, a, l3) =>
              match l3 with
              | [] => Some [(s, a)]
              | TComma :: l4 => match rd_shared fuel l4 with Some r => Some ((s, a) :: r) | None => None end
              | _ => None
              end
          end
      end
  end.

(** util.rs 145-279: parse_local_resources, inside the brackets.  The attributes kept: 66-82 (filter_attributes; those
    of [doc] are dropped), 182-186, 222-227. *)
Definition keep_attrs (a : list attr) : list attr := filter (fun x => match x with ADoc => false | _ => true end) a.
Definition other_attrs (a : list attr) : list attr := filter (fun x => match x with AOther => true | _ => false end) a.
Fixpoint rd_local (fuel : nat) (l : list tok) : option (list (ident * tlocal * list attr)) :=
  match fuel with
  | 0 => None
  | S fuel =>
      match l with
      | [] => Some []                                                                     (* 155-157 *)
      | _ =>
          let (at_, l1) := p_attrs l in
          match p_name l1 with                                                            (* 176-178 *)
          | None => None
          | Some (s, l2) =>
              match (match l2 with
                     | TColon :: TTy ok :: TEq :: TExpr :: l3 =>                          (* 188-228: declared *)
                         if ok then Some (Declared, keep_attrs at_, match l3 with TComma :: l4 => l4 | _ => l3 end) else None
                     | TColon :: _ => None
                     | TEq :: _ => None                                                   (* 229-231 *)
                     | TComma :: l3 => match other_attrs at_ with [] => Some (External, [], l3) | _ => None end   (* 232-247 *)
                     | [] => Some (External, [], [])                                      (* 248-253 *)
                     | _ => None                                                          (* 254-257 *)
                     end) with
              | None => None
              | Some (k, ats, l3) => match rd_local fuel l3 with Some r => Some ((s, k, ats) :: r) | None => None end
              end
          end
      end
  end.

(** The arguments seen so far (parse.rs 195-200). *)
Record given := mkG {
  g_binds : option ident; g_prio : option nat; g_shared : option (list (ident * access));
  g_local : option (list (ident * tlocal * list attr)); g_local_task : option bool }.
Definition given0 := mkG None None None None None.
Definition is_some {X} (o : option X) : bool := match o with Some _ => true | None => false end.

(** parse.rs 202-311: the loop of task_args *)
Fixpoint rd_task (fuel : nat) (g : given) (l : list tok) : option given :=
  match fuel with
  | 0 => None
  | S fuel =>
      match l with
      | [] => Some g                                                                      (* 203-205 *)
      | TId s :: l1 =>
          match (if ieq s "local_task" then
                   if is_some (g_local_task g) then None else                             (* 212-217 *)
                   match l1 with
                   | TEq :: TBool b :: l2 => Some (mkG (g_binds g) (g_prio g) (g_shared g) (g_local g) (Some b), l2)
                   | TEq :: _ => None
                   | _ => Some (mkG (g_binds g) (g_prio g) (g_shared g) (g_local g) (Some true), l1)
                   end
                 else
                   match l1 with
                   | TEq :: l2 =>
                       if ieq s "binds" then                                              (* 231-243 *)
                         if is_some (g_binds g) then None else
                         match l2 with TId i :: l3 => Some (mkG (Some i) (g_prio g) (g_shared g) (g_local g) (g_local_task g), l3) | _ => None end
                       else if ieq s "priority" then                                      (* 245-274 *)
                         if is_some (g_prio g) then None else
                         match l2 with TInt v suffix :: l3 => if suffix || (255 <? v) then None else Some (mkG (g_binds g) (Some v) (g_shared g) (g_local g) (g_local_task g), l3) | _ => None end
                       else if ieq s "shared" then                                        (* 276-285 *)
                         if is_some (g_shared g) then None else
                         match l2 with
                         | TGroup r :: l3 => match rd_shared (S (List.length r)) r with Some x => Some (mkG (g_binds g) (g_prio g) (Some x) (g_local g) (g_local_task g), l3) | None => None end
                         | _ => None
                         end
                       else if ieq s "local" then                                         (* 287-296 *)
                         if is_some (g_local g) then None else
                         match l2 with
                         | TGroup r :: l3 => match rd_local (S (List.length r)) r with Some x => Some (mkG (g_binds g) (g_prio g) (g_shared g) (Some x) (g_local_task g), l3) | None => None end
                         | _ => None
                         end
                       else None                                                          (* 298-300 *)
                   | _ => None
                   end) with
          | None => None
          | Some (g', []) => Some g'                                                      (* 304-306 *)
          | Some (g', TComma :: l') => rd_task fuel g' l'                                  (* 309 *)
          | Some _ => None
          end
      | _ => None
      end
  end.

(** parse.rs 129-187: the loop of idle_args; 72-127: of init_args (only [local]).  Not empty; after a comma another
    argument must come. *)
Fixpoint rd_idle (fuel : nat) (init : bool) (g : given) (l : list tok) : option given :=
  match fuel with
  | 0 => None
  | S fuel =>
      match l with
      | TId s :: TEq :: l2 =>
          match (if ieq s "shared" && negb init then
                   if is_some (g_shared g) then None else
                   match l2 with
                   | TGroup r :: l3 => match rd_shared (S (List.length r)) r with Some x => Some (mkG (g_binds g) (g_prio g) (Some x) (g_local g) (g_local_task g), l3) | None => None end
                   | _ => None
                   end
                 else if ieq s "local" then
                   if is_some (g_local g) then None else
                   match l2 with
                   | TGroup r :: l3 => match rd_local (S (List.length r)) r with Some x => Some (mkG (g_binds g) (g_prio g) (g_shared g) (Some x) (g_local_task g), l3) | None => None end
                   | _ => None
                   end
                 else None) with
          | None => None
          | Some (g', []) => Some g'
          | Some (g', TComma :: l') => rd_idle fuel init g' l'
          | Some _ => None
          end
      | _ => None
      end
  end.
Definition parse_task (l : list tok) : option given := rd_task (S (List.length l)) given0 l.
Definition parse_idle (init : bool) (l : list tok) : option given :=
  match l with [] => Some given0 | _ => rd_idle (S (List.length l)) init given0 l end.      (* 74-76, 131-133 *)

(** The forms of an attribute: [#[task]], [#[task(..)]], [#[task = ..]]. *)
Inductive meta := MPath | MList (l : list tok) | MValue.
(** app.rs 230, 250, 277: [item.attrs.remove(pos).parse_args().unwrap_or_default()]: anything but a list gives no tokens *)
Definition meta_toks (m : meta) : list tok := match m with MList l => l | _ => [] end.

Definition strip (l : list (ident * tlocal * list attr)) : list (ident * tlocal) := map fst l.
Definition raw_of (g : given) (inputs : list ty) : rawtask :=
  mkRaw (g_binds g) (g_prio g) (g_shared g) (option_map strip (g_local g)) (g_local_task g) inputs.
(** The items of the application, with attributes as tokens. *)
Inductive titem :=
| XInit (name : ident) (m : meta) (shared_struct local_struct : ident)
| XIdle (name : ident) (m : meta)
| XTask (name : ident) (m : meta) (inputs : list ty)
| XShared (name : ident) (fields : list (ident * sres))
| XLocal (name : ident) (fields : list (ident * ty)).
Definition read_item (i : titem) : option item :=
  match i with
  | XInit n m sn ln => match parse_idle true (meta_toks m) with Some g => Some (IInit n (option_map strip (g_local g)) sn ln) | None => None end
  | XIdle n m => match parse_idle false (meta_toks m) with Some g => Some (IIdle n (g_shared g) (option_map strip (g_local g))) | None => None end
  | XTask n m ins => match parse_task (meta_toks m) with Some g => Some (ITask n (raw_of g ins)) | None => None end
  | XShared n fs => Some (IShared n fs)
  | XLocal n fs => Some (ILocal n fs)
  end.
Fixpoint read_items (l : list titem) : option (list item) :=
  match l with
  | [] => Some []
  | i :: l' => match read_item i, read_items l' with Some x, Some r => Some (x :: r) | _, _ => None end
  end.
(** The macro, from tokens. *)
Definition expand_tokens (b : bkind) (disp : list ident) (l : list titem) : option expansion :=
  match read_items l with Some items => expand b disp items | None => None end.
