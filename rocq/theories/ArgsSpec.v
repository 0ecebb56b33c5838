(** Specification: how the arguments of [#[app(..)]] are written and what they say.  A grammar over tokens, independent
    of the parser in ArgsModel.v. *)
From Verif Require Import Base AppModel AttrModel AttrSpec SigModel RefModel ArgsModel.
Set Implicit Arguments.
Open Scope string_scope. Open Scope list_scope. Open Scope nat_scope.

(** [a::b::c], at least one segment. *)
Inductive segs_toks : list tok -> list ident -> Prop :=
| PS_one s : segs_toks [TId s] [s]
| PS_more s l r : segs_toks l r -> segs_toks (TId s :: TSep :: l) (s :: r).
Inductive path_toks : list tok -> path -> Prop :=
| PT_rel l r : segs_toks l r -> path_toks l (false, r)
| PT_abs l r : segs_toks l r -> path_toks (TSep :: l) (true, r).
(** Names with attributes, separated by commas; a comma after the last is allowed. *)
Inductive disp_list : list tok -> list (ident * list attr) -> Prop :=
| DL_nil : disp_list [] []
| DL_last at_ s : disp_list (map TAttr at_ ++ [TId s]) [(s, at_)]
| DL_cons at_ s l r : disp_list l r -> disp_list (map TAttr at_ ++ TId s :: TComma :: l) ((s, at_) :: r).

Inductive aarg := ADevice (p : path) | ACore (v : bool) | APeriph (v : bool) | ADisp (d : list (ident * list attr)) | ABackend (i : ident).
(** [bk]: the backend takes a configuration. *)
Inductive aarg_toks (bk : bool) : list tok -> aarg -> Prop :=
| AG_device l p : path_toks l p -> aarg_toks bk (TId "device" :: TEq :: l) (ADevice p)
| AG_core v : aarg_toks bk [TId "core"; TEq; TBool v] (ACore v)
| AG_periph v : aarg_toks bk [TId "peripherals"; TEq; TBool v] (APeriph v)
| AG_disp l d : disp_list l d -> NoDup (map fst d) -> aarg_toks bk [TId "dispatchers"; TEq; TGroup l] (ADisp d)
| AG_backend i : bk = true -> aarg_toks bk [TId "backend"; TEq; TId i] (ABackend i).
(** Separated by commas; a comma after the last is allowed. *)
Inductive app_toks (bk : bool) : list tok -> list aarg -> Prop :=
| AP_nil : app_toks bk [] []
| AP_last t a : aarg_toks bk t a -> app_toks bk t [a]
| AP_cons t a l r : aarg_toks bk t a -> app_toks bk l r -> app_toks bk (t ++ TComma :: l) (a :: r).
Definition aname (a : aarg) : ident :=
  match a with ADevice _ => "device" | ACore _ => "core" | APeriph _ => "peripherals" | ADisp _ => "dispatchers" | ABackend _ => "backend" end.
(** What the arguments say: [core] and [peripherals] are wanted unless switched off, there are no dispatchers unless
    listed; the device must be named. *)
Definition says_args (l : list aarg) (a : appargs) : Prop :=
  In (ADevice (aa_device a)) l /\
  (forall v, In (ACore v) l -> aa_core a = v) /\ ((forall v, ~ In (ACore v) l) -> aa_core a = true) /\
  (forall v, In (APeriph v) l -> aa_periph a = v) /\ ((forall v, ~ In (APeriph v) l) -> aa_periph a = true) /\
  (forall d, In (ADisp d) l -> aa_disp a = d) /\ ((forall d, ~ In (ADisp d) l) -> aa_disp a = []) /\
  (forall i, In (ABackend i) l -> aa_backend a = Some i) /\ ((forall i, ~ In (ABackend i) l) -> aa_backend a = None).

(** The generated code is complete: the fields of every context get values, [Context::new] is called with the
    arguments it takes, and the variable [core] of main exists if it is used. *)
Definition complete (b : bkind) (aa : appargs) (x : expansion) : Prop :=
  (forall n, ctx_values b aa x n = ctx_fields b aa x n /\ new_arg b aa x n = new_param b aa x n) /\
  (uses_core b aa x = true -> declares_core b aa = true).
