(** The signatures the macro's messages ask for, written down directly. *)
From Verif Require Import Base AppModel SigModel.
Set Implicit Arguments.
Open Scope string_scope. Open Scope list_scope. Open Scope nat_scope.

(** [fn(args) -> out] with nothing else: private, not const, not unsafe, no ABI, not generic, not variadic. *)
Definition plain_fn (async : bool) (args : list fnarg) (out : rret) : fsig :=
  mkSig true false async false false false false false args out.
(** The type [name::Context<..>], with generic arguments [a] and [b] after the two names. *)
Definition context_ty (name : ident) (t : rty) : Prop :=
  exists lead a b, t = TyPath false lead [mkSeg name a; mkSeg "Context" b].
(** The same with no lifetime written or one that is not ['static]. *)
Definition bounded_context_ty (name : ident) (t : rty) : Prop :=
  exists lead a b, t = TyPath false lead [mkSeg name a; mkSeg "Context" b] /\
    (b = PNone \/ b = PAngle [] \/ exists l, l <> "static" /\ b = PAngle [GLt l]).
(** A struct's name on its own. *)
Definition name_ty (n : ident) (t : rty) : Prop := exists q, t = TyPath q false [mkSeg n PNone].
Definition unit_out (r : rret) : Prop := r = RDefault \/ r = RType (TyTuple []).

(** "the [#[init]] function must have signature [fn(init::Context) -> (Shared, Local)]" *)
Definition init_signature (name : ident) (s : fsig) (shared local : ident) : Prop :=
  exists t a b, context_ty name t /\ name_ty shared a /\ name_ty local b /\ s = plain_fn false [FTyped t] (RType (TyTuple [a; b])).
(** "this [#[idle]] function must have signature [fn(idle::Context) -> !]" *)
Definition idle_signature (name : ident) (s : fsig) : Prop :=
  exists t, context_ty name t /\ s = plain_fn false [FTyped t] (RType TyNever).
(** "this task handler must have type signature [fn(name::Context)]" *)
Definition hard_signature (name : ident) (s : fsig) : Prop :=
  exists t out, context_ty name t /\ unit_out out /\ s = plain_fn false [FTyped t] out.
(** "... [async fn(name::Context, ..)] or [async fn(name::Context, ..) -> !]"; in an [extern] block a returning task may
    not ask for a ['static] context. *)
Definition soft_signature (foreign : bool) (name : ident) (s : fsig) (inputs : list rty) (diverges : bool) : Prop :=
  exists t out, s = plain_fn true (FTyped t :: map FTyped inputs) out /\
    (if diverges then out = RType TyNever else unit_out out) /\
    (if foreign && negb diverges then bounded_context_ty name t else context_ty name t).
