(** What a compiled program must satisfy, and what the user wrote: vocabulary of the properties of the generated program. *)
From Verif Require Import Base AppModel AppSpec GenModel.
Set Implicit Arguments.

(** Name [n] is defined, used; type [T] is mentioned in the program (a list of items). *)
Definition defined (P : list gitem) (n : name) : Prop := exists g, In g P /\ In n (defs g).
Definition used (P : list gitem) (n : name) : Prop := exists g, In g P /\ In n (uses_of g).
Definition mentioned (P : list gitem) (T : ty) : Prop := exists g, In g P /\ In T (types_of g).

(** Names resolve. *)
Definition resolved (P : list gitem) : Prop := forall n, used P n -> defined P n.
(** Struct literals give every field of their struct a value. *)
Definition literals_complete (P : list gitem) : Prop :=
  forall g s f, In g P -> g_make g = Some s -> defined P (NF s f) -> In (NF s f) (uses_of g).

(** [T] is the type of something that the user wrote and that is not compiled out: a resource, an argument of a task. *)
Inductive written (items : list item) (dty : ident -> ident -> ty) (on : cond -> bool) : ty -> Prop :=
| W_shared r s : shared_field items r s -> on (CShared r) = true -> written items dty on (sr_ty s)
| W_local r t : local_field items r t -> on (CLocal r) = true -> written items dty on t
| W_decl f r : declares items f r -> on (CDecl f r) = true -> written items dty on (dty f r)
| W_input n raw t : In (ITask n raw) items -> rt_binds raw = None -> In t (rt_inputs raw) -> on (CTask n) = true -> written items dty on t.

(** Names the macro reserves. *)
Definition is_internal (s : ident) : Prop := exists t, s = append "__rtic_internal_" t.
