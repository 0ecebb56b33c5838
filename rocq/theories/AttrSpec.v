(** Specification: how the arguments of [#[task(..)]], [#[idle(..)]] and [#[init(..)]] are written and what they say.
    A grammar over tokens, independent of the parser in AttrModel.v. *)
From Verif Require Import Base AppModel AttrModel.
Set Implicit Arguments.
Open Scope string_scope. Open Scope list_scope. Open Scope nat_scope.

(** [name] or [&name], possibly with attributes. *)
Inductive shared_elem : list tok -> ident -> access -> Prop :=
| SE_name at_ s : shared_elem (map TAttr at_ ++ [TId s]) s Exclusive
| SE_ref at_ at2 s : shared_elem (map TAttr at_ ++ TAmp :: map TAttr at2 ++ [TId s]) s SharedRef.
(** Elements separated by commas; a comma after the last is allowed. *)
Inductive shared_list : list tok -> list (ident * access) -> Prop :=
| SL_nil : shared_list [] []
| SL_last e s a : shared_elem e s a -> shared_list e [(s, a)]
| SL_cons e s a l r : shared_elem e s a -> shared_list l r -> shared_list (e ++ TComma :: l) ((s, a) :: r).

(** [name: Type = value] (declared here) or [name] (a field of the [#[local]] struct).  The comma after a declared one
    may be left out.  Attributes of a declared one are kept (except documentation); in front of others [cfg] and
    documentation are accepted, and anything in front of the last one without a comma. *)
Definition kept (at_ : list attr) : list attr := filter (fun x => match x with ADoc => false | ACfg | AOther => true end) at_.
Inductive local_list : list tok -> list (ident * tlocal * list attr) -> Prop :=
| LL_nil : local_list [] []
| LL_declared at_ s (comma : bool) l r : local_list l r ->
    local_list (map TAttr at_ ++ TId s :: TColon :: TTy true :: TEq :: TExpr :: (if comma then TComma :: l else l)) ((s, Declared, kept at_) :: r)
| LL_field at_ s l r : ~ In AOther at_ -> local_list l r -> local_list (map TAttr at_ ++ TId s :: TComma :: l) ((s, External, []) :: r)
| LL_last at_ s : local_list (map TAttr at_ ++ [TId s]) [(s, External, [])].

(** One argument, and how it is written. *)
Inductive arg :=
| GBinds (i : ident) | GPrio (v : nat) | GShared (x : list (ident * access)) | GLocal (x : list (ident * tlocal * list attr)) | GLocalTask (b : bool).
Inductive arg_toks : list tok -> arg -> Prop :=
| AT_binds i : arg_toks [TId "binds"; TEq; TId i] (GBinds i)
| AT_prio v : v <= 255 -> arg_toks [TId "priority"; TEq; TInt v false] (GPrio v)
| AT_shared l x : shared_list l x -> arg_toks [TId "shared"; TEq; TGroup l] (GShared x)
| AT_local l x : local_list l x -> arg_toks [TId "local"; TEq; TGroup l] (GLocal x)
| AT_local_task : arg_toks [TId "local_task"] (GLocalTask true)
| AT_local_task_eq b : arg_toks [TId "local_task"; TEq; TBool b] (GLocalTask b).
(** Arguments separated by commas; [trail]: a comma after the last one is allowed. *)
Inductive args_toks (trail : bool) : list tok -> list arg -> Prop :=
| AA_nil : trail = true -> args_toks trail [] []
| AA_last t a : arg_toks t a -> args_toks trail t [a]
| AA_cons t a l r : arg_toks t a -> args_toks trail l r -> args_toks trail (t ++ TComma :: l) (a :: r).

Definition name_of (a : arg) : ident :=
  match a with GBinds _ => "binds" | GPrio _ => "priority" | GShared _ => "shared" | GLocal _ => "local" | GLocalTask _ => "local_task" end.
(** What the arguments say: the value given, if any. *)
Fixpoint pick {X} (f : arg -> option X) (l : list arg) : option X :=
  match l with [] => None | a :: l' => match f a with Some x => Some x | None => pick f l' end end.
Definition meaning (l : list arg) : given :=
  mkG (pick (fun a => match a with GBinds i => Some i | _ => None end) l)
      (pick (fun a => match a with GPrio v => Some v | _ => None end) l)
      (pick (fun a => match a with GShared x => Some x | _ => None end) l)
      (pick (fun a => match a with GLocal x => Some x | _ => None end) l)
      (pick (fun a => match a with GLocalTask b => Some b | _ => None end) l).
