(** What the user wrote, read off the source items: vocabulary of the properties of the macro. *)
From Verif Require Import Base AppModel.
Set Implicit Arguments.

(** The functions of the application other than [init], with their priority (idle: 0; hardware tasks: 1 unless given;
    software tasks: 0 unless given) and resource lists. *)
Inductive kind := KIdle | KHard (binds : ident) | KSoft.
Definition opt_list {T} (o : option (list T)) : list T := match o with Some l => l | None => [] end.
Inductive src_task (items : list item) : ident -> kind -> nat -> list (ident * access) -> list (ident * tlocal) -> Prop :=
| S_idle n sh lo : In (IIdle n sh lo) items -> src_task items n KIdle 0 (opt_list sh) (opt_list lo)
| S_hard n r b : In (ITask n r) items -> rt_binds r = Some b ->
    src_task items n (KHard b) (match rt_prio r with Some p => p | None => 1 end) (opt_list (rt_shared r)) (opt_list (rt_local r))
| S_soft n r : In (ITask n r) items -> rt_binds r = None ->
    src_task items n KSoft (match rt_prio r with Some p => p | None => 0 end) (opt_list (rt_shared r)) (opt_list (rt_local r)).

(** Task [n] of priority [p] has shared resource [x] in its list ([x]: Exclusive, [&x]: SharedRef). *)
Definition uses_shared items n p x ac : Prop := exists k sh lo, src_task items n k p sh lo /\ In (x, ac) sh.
(** Task [n] of priority [p] uses field [x] of the [#[local]] struct. *)
Definition uses_local items n p x : Prop := exists k sh lo, src_task items n k p sh lo /\ In (x, External) lo.
(** Field [x] of the [#[shared]] struct, of type [r]; of the [#[local]] struct. *)
Definition shared_field items x r : Prop := exists s fs, In (IShared s fs) items /\ In (x, r) fs.
Definition local_field items x t : Prop := exists s fs, In (ILocal s fs) items /\ In (x, t) fs.
(** Function [n] declares its own local resource [x] ([x: T = e]). *)
Definition declares items n x : Prop :=
  (exists k p sh lo, src_task items n k p sh lo /\ In (x, Declared) lo) \/ (exists lo ss ls, In (IInit n lo ss ls) items /\ In (x, Declared) (opt_list lo)).
(** No task uses a [#[local]] field with the name of shared resource [x]. *)
Definition no_clash items x : Prop := forall n p, ~ uses_local items n p x.

(** [c] is the highest priority of the tasks that list [x]. *)
Definition highest items x c : Prop :=
  (exists n ac, uses_shared items n c x ac) /\ forall n p ac, uses_shared items n p x ac -> p <= c.

(** The priority of task [n] as written. *)
Definition soft_prio (r : rawtask) : nat := match rt_prio r with Some p => p | None => 0 end.
(** A value of type [T] may be handed from one execution context to one of another priority:
    - a shared resource is stored by [init] (which runs before everything else, in thread mode: priority 0) and
      used by a task of another priority, or used by two tasks of different priorities;
    - a local resource is stored by [init] and used by a task of another priority;
    - an argument is passed by a [spawn]: [spawnable (Some n) t] if the code of software task [n], and
      [spawnable None t] if code running elsewhere (at whatever priority), can call it. *)
Inductive crosses items (spawnable : option ident -> ident -> bool) : ty -> Prop :=
| X_init x r n p ac : shared_field items x r -> uses_shared items n p x ac -> p <> 0 -> crosses items spawnable (sr_ty r)
| X_tasks x r n p ac n' p' ac' : shared_field items x r -> uses_shared items n p x ac -> uses_shared items n' p' x ac' -> p <> p' -> crosses items spawnable (sr_ty r)
| X_local x t n p : local_field items x t -> uses_local items n p x -> p <> 0 -> crosses items spawnable t
| X_spawn t r target : In (ITask target r) items -> rt_binds r = None -> In t (rt_inputs r) -> spawnable None target = true -> crosses items spawnable t
| X_spawn_sw t r target n rn : In (ITask target r) items -> rt_binds r = None -> In t (rt_inputs r) ->
    spawnable (Some n) target = true -> In (ITask n rn) items -> rt_binds rn = None -> soft_prio rn <> soft_prio r -> crosses items spawnable t.
(** A value of type [T] is accessed through shared references from two priorities. *)
Definition ref_shared items t : Prop :=
  exists x r n p n' p', shared_field items x r /\ sr_ty r = t /\ uses_shared items n p x SharedRef /\ uses_shared items n' p' x SharedRef /\ p <> p'.
