(** The rules an application must follow, as the RTIC book and the error messages of the macro give them, read off
    the source items.  Vocabulary of C59. *)
From Verif Require Import Base AppModel AppSpec.
Set Implicit Arguments.

(** Names of functions, interrupts bound to hardware tasks. *)
Definition fun_name (i : item) : list ident :=
  match i with IInit n _ _ _ | IIdle n _ _ | ITask n _ => [n] | IShared _ _ | ILocal _ _ => [] end.
Definition bound (i : item) : list ident :=
  match i with ITask _ r => match rt_binds r with Some b => [b] | None => [] end | _ => [] end.
Definition is_init (i : item) : bool := match i with IInit _ _ _ _ => true | _ => false end.
Definition is_idle (i : item) : bool := match i with IIdle _ _ _ => true | _ => false end.
Definition is_shared (i : item) : bool := match i with IShared _ _ => true | _ => false end.
Definition is_local (i : item) : bool := match i with ILocal _ _ => true | _ => false end.
Definition how_many (f : item -> bool) (items : list item) : nat := length (filter f items).

(** One item by itself: no resource listed twice, [local = []] is not written, [init] only declares local resources;
    priorities fit a byte, and 0 is not for hardware tasks; no field twice. *)
Definition locals_ok (lo : option (list (ident * tlocal))) : Prop := NoDup (map fst (opt_list lo)) /\ lo <> Some [].
Definition item_ok (i : item) : Prop :=
  match i with
  | IInit _ lo _ _ => locals_ok lo /\ forall x d, In (x, d) (opt_list lo) -> d = Declared
  | IIdle _ sh lo => NoDup (map fst (opt_list sh)) /\ locals_ok lo
  | ITask _ r => NoDup (map fst (opt_list (rt_shared r))) /\ locals_ok (rt_local r) /\
                 forall p, rt_prio r = Some p -> p <= 255 /\ (rt_binds r <> None -> 1 <= p)
  | IShared _ fs => NoDup (map fst fs)
  | ILocal _ fs => NoDup (map fst fs)
  end.

(** The module: exactly one [init], at most one [idle]; function names and bound interrupts are distinct; [init] returns the
    structs of the application. *)
Record module_ok (items : list item) : Prop := {
  mo_items : forall i, In i items -> item_ok i;
  mo_init : how_many is_init items = 1;
  mo_idle : how_many is_idle items <= 1;
  mo_names : NoDup (flat_map fun_name items);
  mo_binds : NoDup (flat_map bound items);
  mo_structs : forall n lo sn ln, In (IInit n lo sn ln) items ->
    (forall s fs, In (IShared s fs) items -> s = sn) /\ (forall s fs, In (ILocal s fs) items -> s = ln)
}.

(** The resources: tasks list existing ones; not both [x] and [&x] anywhere; a lock-free one is used by [idle] or hardware tasks of
    one priority only; a local one by one task, and nobody declares another of its name; [idle] excludes software tasks of
    priority 0. *)
Record resources_ok (items : list item) : Prop := {
  re_shared : forall n p x ac, uses_shared items n p x ac -> exists r, shared_field items x r;
  re_local : forall n p x, uses_local items n p x -> exists t, local_field items x t;
  re_mixed : forall n p n' p' x, uses_shared items n p x Exclusive -> uses_shared items n' p' x SharedRef -> False;
  re_free : forall x r, shared_field items x r -> sr_lock_free r = true ->
    (forall n p sh lo ac, src_task items n KSoft p sh lo -> ~ In (x, ac) sh) /\
    (forall n p ac n' p' ac', uses_shared items n p x ac -> uses_shared items n' p' x ac' -> p = p');
  re_one : forall x n p n' p', uses_local items n p x -> uses_local items n' p' x -> n = n';
  re_decl : forall x t n, local_field items x t -> ~ declares items n x;
  re_zero : forall n sh lo n' sh' lo', src_task items n KIdle 0 sh lo -> ~ src_task items n' KSoft 0 sh' lo'
}.

(** The dispatchers: distinct, not bound to a task, at least as many as there are priorities of software tasks above 0
    (SLIC: none, they are generated); and what the target supports. *)
Definition enough_dispatchers (items : list item) (disp : list ident) : Prop :=
  forall ps, NoDup ps -> (forall p, In p ps -> 0 < p /\ exists n sh lo, src_task items n KSoft p sh lo) -> length ps <= length disp.
Record target_ok (b : bkind) (disp : list ident) (items : list item) : Prop := {
  ta_disp : NoDup disp;
  ta_bound : forall n d p sh lo, src_task items n (KHard d) p sh lo -> ~ In d disp;
  ta_enough : b <> Slic -> enough_dispatchers items disp;
  ta_target : match b with
    | Cortex bits =>
        (forall d, In d disp -> ~ In d ["NonMaskableInt"; "HardFault"; "MemoryManagement"; "BusFault"; "UsageFault"; "SecureFault";
                                        "SVCall"; "DebugMonitor"; "PendSV"; "SysTick"]%string) /\
        (forall n d p sh lo, src_task items n (KHard d) p sh lo -> d <> "NonMaskableInt"%string /\ d <> "HardFault"%string) /\
        (forall n k p sh lo, src_task items n k p sh lo -> p <= 2 ^ bits)
    | Esp32c3 | Esp32c6 =>
        (forall d, In d disp -> In d ["FROM_CPU_INTR0"; "FROM_CPU_INTR1"; "FROM_CPU_INTR2"; "FROM_CPU_INTR3"]%string) /\
        (forall n k p sh lo, src_task items n k p sh lo -> p < 15)
    | Slic => disp = []
    end
}.
