(** The #[app] macro once more, with its panics: every [expect], [unwrap], index, assertion, subtraction of an unsigned number and
    [Ident::new] the macro runs on an application.  Errors are reported at a place in the source; a panic is not. *)
From Verif Require Import Base AppModel.
Set Implicit Arguments.
Open Scope string_scope.
Open Scope list_scope.
Open Scope nat_scope.

Inductive res (A : Type) := Panic | Error | Done (a : A).
Arguments Panic {A}.
Arguments Error {A}.
Arguments Done {A} a.

Definition bind {A B} (r : res A) (f : A -> res B) : res B := match r with Panic => Panic | Error => Error | Done a => f a end.
Notation "'do' x <- r ; e" := (bind r (fun x => e)) (at level 200, x name, r at level 100, e at level 200).
Fixpoint each {A} (f : A -> res unit) (l : list A) : res unit :=
  match l with [] => Done tt | x :: l' => do _ <- f x; each f l' end.

(** [Option::expect], [Option::unwrap], indexing of a map *)
Definition expect {A} (o : option A) : res A := match o with Some a => Done a | None => Panic end.
(** [assert!] *)
Definition assert (b : bool) : res unit := if b then Done tt else Panic.
(** [return Err(..)] unless the condition holds *)
Definition require (b : bool) : res unit := if b then Done tt else Error.
(** [p - 1] on u8, in a debug build of the macro (a release build wraps) *)
Definition minus1 (p : nat) : res nat := if p =? 0 then Panic else Done (p - 1).
(** proc_macro2's [Ident::new]: panics unless the text is an identifier; a raw identifier r#x is not accepted, and no name
    that contains one.  The other characters of a name come from identifiers of the source and are fine. *)
Fixpoint has_hash (s : string) : bool :=
  match s with EmptyString => false | String c r => Ascii.eqb c "#"%char || has_hash r end.
Definition ident_new (s : string) : res ident := if has_hash s then Panic else Done s.

(** codegen/util.rs 9-17: mark_internal_name, internal_task_ident; the text of an identifier is what [Display] gives, with r# *)
Definition mark_internal (s : string) : res ident := ident_new ("__rtic_internal_" ++ s).
Definition internal_task (n : ident) (k : string) : res ident := mark_internal (n ++ "_" ++ k).

(** syntax/parse/app.rs 173-549: App::parse; 509-513: the three [expect]s *)
Definition parse_res (disp : list ident) (items : list item) : res app :=
  match parse_disp [] disp, parse_items pst0 items with
  | Some d, Some s =>
      do sid <- expect (p_sid s);
      do lid <- expect (p_lid s);
      do i <- expect (p_init s);
      let '(n, l, sn, ln) := i in
      if ieq sid sn && ieq lid ln then Done (mkApp d (n, l) (p_idle s) (p_shared s) (p_local s) (p_hw s) (p_sw s)) else Error
  | _, _ => Error
  end.

(** syntax/analyze.rs 14-317: 194-199, 206, 310 *)
Definition analyze_res (a : app) : res analysis :=
  do _ <- require (negb (lf_error a || lr_error a || zero_error a));
  do _ <- each (fun x => do _ <- expect (iget (ap_shared a) (snd (fst x))); Done tt) (accesses a);
  match analyze a with
  | Some y => do _ <- assert (forallb (fun c => match snd c with [] => false | _ => true end) (y_channels y)); Done y
  | None => Error
  end.

(** architecture_specific_analysis: cortex.rs 267-331, esp32c3.rs 120-167, esp32c6.rs 125-172, riscv_slic.rs 126-160, with the
    [first.unwrap()] of the error for missing dispatchers; [hart]: the CLINT configuration is there or not needed *)
Definition arch_res (b : bkind) (hart : bool) (a : app) : res unit :=
  do _ <- require (match b with
                   | Cortex _ => negb (existsb (fun d => mem d exceptions) (ap_disp a))
                   | Esp32c3 | Esp32c6 => forallb (fun d => mem d ["FROM_CPU_INTR0"; "FROM_CPU_INTR1"; "FROM_CPU_INTR2"; "FROM_CPU_INTR3"]) (ap_disp a)
                   | Slic => true
                   end);
  do _ <- (if enough a then Done tt else do _ <- expect (last (map (fun t => Some (fst t)) (ap_sw a)) None); Error);
  require (match b with
           | Cortex _ => forallb (fun t => negb (mem (hw_binds (snd t)) ["NonMaskableInt"; "HardFault"])) (ap_hw a)
           | Slic => hart
           | _ => true
           end).

(** rtic-macros/src/analyze.rs 26-72: 42-45, 55, 65 *)
Definition assign_res (a : app) : res (list (nat * ident)) :=
  do _ <- assert (length (nz_prios a) <=? length (ap_disp a));
  do ints <- expect (interrupts a);
  do _ <- (match map (fun t => hw_prio (snd t)) (ap_hw a) with [] => Done 0 | p :: l => minus1 (fold_left Nat.min l p) end);
  Done ints.

(** One context (init, idle, a task): codegen/module.rs 104 (the name of its Context), shared_resources_struct.rs 24-26,
    local_resources_struct.rs 30-49.  [task_list] holds the contexts with their resource lists. *)
Definition ctx_res (a : app) (c : ident * list ident * list (ident * tlocal) * nat) : res unit :=
  let '(n, sh, lo, _) := c in
  do _ <- internal_task n "Context";
  do _ <- each (fun r => do _ <- expect (iget (ap_shared a) r); Done tt) sh;
  each (fun l => match snd l with
                 | External => do _ <- expect (iget (ap_local a) (fst l)); Done tt
                 | Declared => do _ <- mark_internal ("local_" ++ n ++ "_" ++ fst l); Done tt
                 end) lo.

Definition int_of (ints : list (nat * ident)) (p : nat) : option (nat * ident) := find (fun i => fst i =? p) ints.

(** A software task: codegen/module.rs 107-122, util.rs 168-194 *)
Definition sw_res (a : app) (ints : list (nat * ident)) (n : ident) : res unit :=
  do t <- expect (iget (ap_sw a) n);
  do _ <- (if 0 <? sw_prio t then do _ <- expect (int_of ints (sw_prio t)); Done tt else Done tt);
  do _ <- internal_task n "spawn";
  do _ <- internal_task n "waker";
  do _ <- internal_task n "EXEC";
  Done tt.

(** A dispatcher: codegen/async_dispatchers.rs 23-58 *)
Definition disp_res (a : app) (ints : list (nat * ident)) (c : nat * list ident) : res unit :=
  do _ <- (if 0 <? fst c then do i <- expect (int_of ints (fst c)); do _ <- ident_new (snd i); Done tt else Done tt);
  each (fun n => do _ <- expect (iget (ap_sw a) n); do _ <- internal_task n "EXEC"; Done tt) (snd c).

(** codegen/shared_resources.rs, local_resources.rs: the statics and proxies of the resources; bindings/cortex.rs 75-86: the masks of
    the source-masking lock (here for every backend and also if no resource needs a lock) *)
Definition shared_res (a : app) (ints : list (nat * ident)) : res unit :=
  do _ <- each (fun r => do _ <- mark_internal ("shared_resource_" ++ fst r); do _ <- ident_new (fst r ++ "_that_needs_to_be_locked"); Done tt) (ap_shared a);
  do _ <- each (fun i => do _ <- minus1 (fst i); Done tt) ints;
  each (fun t => if is_exception (hw_binds (snd t)) then Done tt else do _ <- minus1 (hw_prio (snd t)); Done tt) (ap_hw a).
Definition local_res (a : app) : res unit :=
  do _ <- each (fun r => do _ <- mark_internal ("local_resource_" ++ fst r); Done tt) (ap_local a);
  each (fun d => do _ <- mark_internal ("local_" ++ fst d ++ "_" ++ snd d); Done tt) (declared_locals a).

(** codegen.rs 25-83 *)
Definition codegen_res (a : app) (y : analysis) (ints : list (nat * ident)) : res unit :=
  do _ <- each (ctx_res a) (task_list a);
  do _ <- shared_res a ints;
  do _ <- local_res a;
  do _ <- each (fun t => do _ <- expect (iget (ap_hw a) (fst t)); Done tt) (ap_hw a);
  do _ <- each (fun t => sw_res a ints (fst t)) (ap_sw a);
  each (disp_res a ints) (y_channels y).

(** lib.rs 33-52 *)
Definition macro (b : bkind) (hart : bool) (disp : list ident) (items : list item) : res expansion :=
  do a <- parse_res disp items;
  do _ <- require (syntax_check a);
  do y <- analyze_res a;
  do a' <- match preprocess b a with Some a' => Done a' | None => Error end;
  do _ <- arch_res b hart a';
  do ints <- assign_res a';
  do _ <- codegen_res a' y ints;
  Done (mkX a' y ints).
