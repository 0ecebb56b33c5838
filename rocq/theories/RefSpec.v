(** What C80 says of references. *)
From Verif Require Import Base LTS AppModel SigModel RefModel.
Set Implicit Arguments.

(** Two exclusive references to the same resource exist at once. *)
Definition aliased (s : rst) : Prop :=
  exists i j f g, i <> j /\ nth_error (r_refs s) i = Some f /\ nth_error (r_refs s) j = Some g /\ rf_place f = rf_place g.
Definition in_progress (s : rst) (i : nat) : Prop := exists u, In u (r_runs s) /\ ru_id u = i.
(** A task holds a reference to a variable of a function that has returned. *)
Definition dangling (s : rst) : Prop := exists h l, In (h, l) (r_lent s) /\ in_progress s h /\ ~ in_progress s l.
(** A CriticalSection token exists although interrupts have been enabled. *)
Definition token_loose (s : rst) : Prop := r_phase s = Started /\ r_token s = true.
(** The values returned by init are about to be stored (post_init.rs) in a resource to which a reference exists. *)
Definition stored_under (s : rst) : Prop := r_phase s = InInit /\ exists f r, In f (r_refs s) /\ (rf_place f = PLocal r \/ rf_place f = PShared r).

(** A type as written that lets a value borrow from a variable: it mentions a reference whose lifetime is left out or is
    not ['static], or such a lifetime as a generic argument. *)
Inductive borrows : rty -> Prop :=
| B_elided : borrows (TyRef None)
| B_named l : l <> "static"%string -> borrows (TyRef (Some l))
| B_tuple t l : In t l -> borrows t -> borrows (TyTuple l)
| B_generic q c segs sg g l : In sg segs -> sg_args sg = PAngle g -> In (GLt l) g -> l <> "static"%string -> borrows (TyPath q c segs).
(** The arguments of a task after its context. *)
Definition argument (f : pfn) (t : rty) : Prop := exists c ins, fs_inputs (pf_sig f) = c :: map FTyped ins /\ In t ins.
