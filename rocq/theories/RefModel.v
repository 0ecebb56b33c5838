(** Model of the lifetimes in the generated code: which references a function is given, how long the type system lets
    it keep them, and what is done with them.
    - rtic-macros/src/syntax.rs 57-59 (runs_once);
    - rtic-macros/src/codegen/local_resources_struct.rs 29-62, shared_resources_struct.rs 27-83 (the fields of a context
      and their lifetimes), module.rs 18-48 (the fields of init's context), 100-181 (spawn), hardware_tasks.rs 34-53
      (the handler), 80-93, init.rs 66-78, idle.rs 36-49, software_tasks.rs 36-66 (the user's function as re-emitted),
      main.rs 15-57 (main), rtic/src/export/executor.rs 253-259 (try_allocate), 290-305 (assert_task_diverges).
    The Rust compiler is part of the model, reduced to what it decides here:
    - a reference of lifetime ['static] may be stored anywhere, one of a lifetime that the function is generic over may
      not outlive the call (or, for an [async fn], its future);
    - a function that wants ['static] cannot be called with a lifetime that the caller is generic over;
    - [exec.spawn(future)] needs a future without lifetimes other than ['static], unless it went through [transmute].
    Exclusive references obtained by [lock] are not in this model (C01-C06, C54, C62, C77). *)
From Verif Require Import Base AppModel SigModel.
Set Implicit Arguments.
Open Scope string_scope. Open Scope list_scope. Open Scope nat_scope.

(** A function of the application as written: in the module or declared in an [extern "Rust"] block, its signature
    there, and, for the latter, the function defined elsewhere: does it want [Context<'static>], does it return [!]. *)
Record pfn := mkPf { pf_extern : bool; pf_sig : fsig; pf_static : bool; pf_diverges : bool }.
Definition declared_bottom (f : pfn) : bool := type_is_bottom (fs_output (pf_sig f)).
(** Does the function that is called never return?  In the module the signature is the function's own; a function declared
    in an [extern] block may be declared otherwise than it is. *)
Definition never_ready (f : pfn) : bool := if pf_extern f then pf_diverges f else declared_bottom f.
Definition runs_once (k : fkind) : bool := match k with FInit | FIdle => true | _ => false end.   (* syntax.rs 57-59 *)

(** Does the called function want a ['static] context?  In the module the macro writes the signature itself: an elided
    lifetime for init, idle and hardware tasks (init.rs 72, idle.rs 43, hardware_tasks.rs 87), ['a] or, if the task
    returns [!], ['static] for software tasks (software_tasks.rs 41-60); the lifetime written by the user is dropped. *)
Definition wants_static (k : fkind) (f : pfn) : bool :=
  if pf_extern f then pf_static f else match k with FSoft => declared_bottom f | _ => false end.
(** Can the caller's lifetime be inferred as ['static]?  main.rs 21, 54 and module.rs 137-147: [Context::new()], yes;
    hardware_tasks.rs 46-49 and module.rs 148-155: [Context::<'non_static>::new()], no. *)
Definition infers_lifetime (k : fkind) (f : pfn) : bool :=
  match k with FInit | FIdle => true | FHard => false | FSoft => negb (pf_extern f) || declared_bottom f end.
(** module.rs 148-163: the future of a returning [extern] task is transmuted to the ['static] type the executor wants *)
Definition erases (f : pfn) : bool := pf_extern f && negb (declared_bottom f).
(** Does a type mention no lifetime but ['static]? *)
Fixpoint ty_static (t : rty) : bool :=
  match t with
  | TyRef (Some l) => ieq l "static"
  | TyRef None => false
  | TyTuple l => forallb ty_static l
  | TyPath _ _ l => forallb (fun s => match sg_args s with PAngle g => forallb (fun x => match x with GLt l => ieq l "static" | GOther => true end) g | _ => true end) l
  | _ => true
  end.
Definition inputs_of (f : pfn) : list rty := match all_typed (tl (fs_inputs (pf_sig f))) with Some l => l | None => [] end.
Definition static_inputs (f : pfn) : bool := forallb ty_static (inputs_of f).
(** The generated code compiles. *)
Definition rustc_ok (k : fkind) (f : pfn) : bool :=
  (negb (wants_static k f) || infers_lifetime k f) &&
  match k with
  | FSoft => (negb (pf_extern f && declared_bottom f) || pf_diverges f) &&           (* assert_task_diverges *)
             (erases f || static_inputs f)                                           (* F: 'static *)
  | _ => true
  end.

(** The functions of an application. *)
Definition ctx_of (a : app) (n : ident) : option (fkind * nat * args) :=
  if ieq n (fst (ap_init a)) then Some (FInit, 0, mkArgs [] (snd (ap_init a)))
  else match ap_idle a with
       | Some (m, ar) => if ieq n m then Some (FIdle, 0, ar) else
           match iget (ap_hw a) n with Some t => Some (FHard, hw_prio t, hw_args t) | None =>
           match iget (ap_sw a) n with Some t => Some (FSoft, sw_prio t, sw_args t) | None => None end end
       | None =>
           match iget (ap_hw a) n with Some t => Some (FHard, hw_prio t, hw_args t) | None =>
           match iget (ap_sw a) n with Some t => Some (FSoft, sw_prio t, sw_args t) | None => None end end
       end.
(** All functions are accepted by the macro and by the compiler. *)
Definition builds (a : app) (fns : ident -> pfn) : Prop :=
  forall n k p ar, ctx_of a n = Some (k, p, ar) -> fn_parse k (pf_extern (fns n)) n (pf_sig (fns n)) <> None /\ rustc_ok k (fns n) = true.

(** The [static]s behind the references. *)
Inductive place := PShared (r : ident) | PLocal (r : ident) | PDecl (task r : ident).
Definition lock_free (a : app) (r : ident) : bool := match iget (ap_shared a) r with Some s => sr_lock_free s | None => false end.
(* local_resources_struct.rs 29-62: every local resource, exclusively *)
Definition local_places (t : ident) (lo : list (ident * tlocal)) : list place :=
  map (fun x => match snd x with External => PLocal (fst x) | Declared => PDecl t (fst x) end) lo.
(* shared_resources_struct.rs 43-56, 77-81: the lock-free shared resources without [&] *)
Definition shared_places (a : app) (sh : list (ident * access)) : list place :=
  map (fun x => PShared (fst x)) (filter (fun x => is_excl (snd x) && lock_free a (fst x)) sh).
Definition ctx_places (a : app) (t : ident) (ar : args) : list place := local_places t (a_local ar) ++ shared_places a (a_shared ar).
(* local_resources_struct.rs 38-42, shared_resources_struct.rs 45-49: ['static] in contexts that run once, ['a] else *)
Definition field_static (k : fkind) (f : pfn) : bool := runs_once k || wants_static k f.

(** ** Running it *)
Inductive phase := Reset | InInit | Started.
Record rrun := mkRun { ru_id : nat; ru_task : ident; ru_kind : fkind; ru_prio : nat }.
(** An exclusive reference: the run whose context it was created for, and whether it has been stored elsewhere. *)
Record rref := mkRef { rf_run : nat; rf_task : ident; rf_place : place; rf_kept : bool }.
Record rst := mkRs {
  r_phase : phase; r_idle : bool; r_next : nat;
  r_runs : list rrun;                                       (* runs in progress *)
  r_refs : list rref;                                      (* exclusive references in existence *)
  r_lent : list (nat * nat);                               (* run .. was given a reference to a variable of run .. *)
  r_token : bool }.                                        (* init's CriticalSection was stored somewhere *)
Definition rs0 := mkRs Reset false 0 [] [] [] false.

Section Machine.
Variable a : app.
Variable fns : ident -> pfn.

(* [Context::new()]: the references are created *)
Definition begin (s : rst) (t : ident) (k : fkind) (p : nat) (ar : args) : rst :=
  mkRs (r_phase s) (r_idle s) (S (r_next s)) (mkRun (r_next s) t k p :: r_runs s)
       (map (fun q => mkRef (r_next s) t q false) (ctx_places a t ar) ++ r_refs s) (r_lent s) (r_token s).
(* the function returns, or its future is ready: what it still holds is gone *)
Definition finish (s : rst) (i : nat) : rst :=
  mkRs (r_phase s) (r_idle s) (r_next s) (filter (fun u => negb (ru_id u =? i)) (r_runs s))
       (filter (fun f => negb (rf_run f =? i) || rf_kept f) (r_refs s)) (r_lent s) (r_token s).
Definition with_phase (s : rst) (p : phase) (i : bool) : rst := mkRs p i (r_next s) (r_runs s) (r_refs s) (r_lent s) (r_token s).
Definition find_run (s : rst) (i : nat) : option rrun := find (fun u => ru_id u =? i) (r_runs s).
Definition running (s : rst) (t : ident) : bool := existsb (fun u => ieq (ru_task u) t) (r_runs s).
Definition is_hard (k : fkind) : bool := match k with FHard => true | _ => false end.

Inductive rlabel :=
| LInit                                   (* main.rs 54: main calls init, interrupts disabled *)
| LInitEnd                                (* init returns, resources are stored, interrupts are enabled *)
| LIdle                                   (* main.rs 19-21: main calls idle *)
| LEnter (t : ident)                      (* the handler of a hardware task is entered *)
| LLeave (i : nat)                        (* .. and returns *)
| LSpawn (t : ident) (lend : option nat)  (* spawn, perhaps with a reference to a variable of the running function *)
| LReady (i : nat)                        (* a software task's future is ready *)
| LKeep (i : nat) (q : place)             (* a function stores a reference in a static, sends it away, .. *)
| LKeepToken.                             (* init stores its CriticalSection *)

Fixpoint keep (l : list rref) (i : nat) (same : place -> bool) : list rref :=
  match l with
  | [] => []
  | f :: l' => (if (rf_run f =? i) && same (rf_place f) then mkRef (rf_run f) (rf_task f) (rf_place f) true else f) :: keep l' i same
  end.
Definition place_eqb (p q : place) : bool :=
  match p, q with
  | PShared r, PShared r' => ieq r r'
  | PLocal r, PLocal r' => ieq r r'
  | PDecl t r, PDecl t' r' => ieq t t' && ieq r r'
  | _, _ => false
  end.

Definition rstep (s : rst) (l : rlabel) : option rst :=
  match l with
  | LInit =>
      match r_phase s, ctx_of a (fst (ap_init a)) with
      | Reset, Some (FInit, p, ar) => Some (begin (with_phase s InInit false) (fst (ap_init a)) FInit p ar)
      | _, _ => None
      end
  | LInitEnd =>
      match r_phase s, find (fun u => match ru_kind u with FInit => true | _ => false end) (r_runs s) with
      | InInit, Some u => Some (with_phase (finish s (ru_id u)) Started false)
      | _, _ => None
      end
  | LIdle =>
      match r_phase s, r_idle s, ap_idle a with
      | Started, false, Some (n, ar) => Some (begin (with_phase s Started true) n FIdle 0 ar)
      | _, _, _ => None
      end
  | LEnter t =>
      (* a handler preempts only handlers of lower priority, on every target *)
      match r_phase s, ctx_of a t with
      | Started, Some (FHard, p, ar) =>
          if forallb (fun u => negb (is_hard (ru_kind u)) || (ru_prio u <? p)) (r_runs s) then Some (begin s t FHard p ar) else None
      | _, _ => None
      end
  | LLeave i =>
      match find_run s i with Some u => if is_hard (ru_kind u) then Some (finish s i) else None | None => None end
  | LSpawn t lend =>
      match r_phase s, ctx_of a t with
      | Reset, _ => None
      | _, Some (FSoft, p, ar) =>
          if running s t then Some s                                   (* try_allocate fails: Err *)
          else match lend with
               | None => Some (begin s t FSoft p ar)
               | Some j =>
                   if erases (fns t) && negb (static_inputs (fns t)) && (match find_run s j with Some _ => true | None => false end) then
                     let s' := begin s t FSoft p ar in
                     Some (mkRs (r_phase s') (r_idle s') (r_next s') (r_runs s') (r_refs s') ((r_next s, j) :: r_lent s') (r_token s'))
                   else None
               end
      | _, _ => None
      end
  | LReady i =>
      match find_run s i with
      | Some u => match ru_kind u with FSoft => if never_ready (fns (ru_task u)) then None else Some (finish s i) | _ => None end
      | None => None
      end
  | LKeep i q =>
      match find_run s i with
      | Some u => if field_static (ru_kind u) (fns (ru_task u)) then
                    Some (mkRs (r_phase s) (r_idle s) (r_next s) (r_runs s) (keep (r_refs s) i (place_eqb q)) (r_lent s) (r_token s))
                  else None
      | None => None
      end
  | LKeepToken =>
      match r_phase s with
      | InInit => if wants_static FInit (fns (fst (ap_init a))) then
                    Some (mkRs (r_phase s) (r_idle s) (r_next s) (r_runs s) (r_refs s) (r_lent s) true) else None
      | _ => None
      end
  end.
End Machine.
