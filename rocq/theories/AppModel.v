(** Model of the [#[rtic::app]] macro: parsing of the application into its parts, the checks, the analysis and what
    the generated code does with its results.
    Identifiers are strings, types are numbers (only their equality matters).  An application is given by the
    [dispatchers] argument and the items of the module, after tokenisation: the pieces of [#[init]], [#[idle]],
    [#[task]] functions and [#[shared]], [#[local]] structs that the macro looks at.
    Not modelled: tokens, spans and error texts ([None] is any compile error), [#[cfg]] attributes, function
    signatures other than the types of a task's arguments, user code (forwarded unchanged), and arguments given twice in one
    attribute (rejected by the parser). *)
From Coq Require Export String Ascii List.
From Verif Require Import Base.
Set Implicit Arguments.

Definition ident := string.
Definition ty := nat.
Notation ieq := String.eqb.
Definition mem (x : ident) (l : list ident) : bool := existsb (ieq x) l.

(** ** IndexMap (rtic-macros/src/syntax.rs 20: [Map<T> = IndexMap<Ident, T>]): keys in insertion order *)
Section IMap.
Context {V : Type}.
Fixpoint iget (m : list (ident * V)) (k : ident) : option V :=
  match m with [] => None | (k', v) :: m' => if ieq k k' then Some v else iget m' k end.
(** [insert]: replaces the value of a present key in place, or appends. *)
Fixpoint iinsert (m : list (ident * V)) (k : ident) (v : V) : list (ident * V) :=
  match m with [] => [(k, v)] | (k', v') :: m' => if ieq k k' then (k', v) :: m' else (k', v') :: iinsert m' k v end.
Definition ihas (m : list (ident * V)) (k : ident) : bool := match iget m k with Some _ => true | None => false end.
End IMap.

(** ** The syntax tree (rtic-macros/src/syntax/ast.rs) *)
(* ast.rs: Access *)
Inductive access := Exclusive | SharedRef.
(* ast.rs: TaskLocal; the type and initial value of a declared one do not matter here *)
Inductive tlocal := External | Declared.
(* ast.rs: SharedResource, LocalResource *)
Record sres := mkSR { sr_ty : ty; sr_lock_free : bool }.
Record args := mkArgs { a_shared : list (ident * access); a_local : list (ident * tlocal) }.
(* ast.rs: HardwareTask / HardwareTaskArgs *)
Record hwtask := mkHw { hw_binds : ident; hw_prio : nat; hw_args : args }.
(* ast.rs: SoftwareTask / SoftwareTaskArgs *)
Record swtask := mkSw { sw_prio : nat; sw_args : args; sw_inputs : list ty; sw_local_task : bool }.
(* ast.rs: App *)
Record app := mkApp {
  ap_disp : list ident;
  ap_init : ident * list (ident * tlocal);
  ap_idle : option (ident * args);
  ap_shared : list (ident * sres);
  ap_local : list (ident * ty);
  ap_hw : list (ident * hwtask);
  ap_sw : list (ident * swtask)
}.

(** ** Parsing *)
(* The items of the module, as written; [None] for an argument left out. *)
Record rawtask := mkRaw {
  rt_binds : option ident; rt_prio : option nat; rt_shared : option (list (ident * access));
  rt_local : option (list (ident * tlocal)); rt_local_task : option bool; rt_inputs : list ty }.
Inductive item :=
| IInit (name : ident) (local : option (list (ident * tlocal))) (shared_struct local_struct : ident)
| IIdle (name : ident) (shared : option (list (ident * access))) (local : option (list (ident * tlocal)))
| ITask (name : ident) (raw : rawtask)
| IShared (name : ident) (fields : list (ident * sres))
| ILocal (name : ident) (fields : list (ident * ty)).

(* The loops that fill a Map and reject a key already there: syntax/parse/util.rs 99-126 (shared list), 154-269 (local
   list), syntax/parse/app.rs 327-338, 365-375 (fields). *)
Fixpoint no_dups {V} (acc l : list (ident * V)) : option (list (ident * V)) :=
  match l with
  | [] => Some acc
  | (k, v) :: l' => if ihas acc k then None else no_dups (acc ++ [(k, v)]) l'
  end.
(* syntax/parse/util.rs 94-129: parse_shared_resources; [unwrap_or_default] of parse.rs 314 *)
Definition parse_shared (o : option (list (ident * access))) : option (list (ident * access)) :=
  match o with None => Some [] | Some l => no_dups [] l end.
(* syntax/parse/util.rs 145-279: parse_local_resources, an empty list is an error *)
Definition parse_local (o : option (list (ident * tlocal))) : option (list (ident * tlocal)) :=
  match o with
  | None => Some []
  | Some l => match no_dups [] l with Some [] => None | x => x end
  end.
(* syntax/parse.rs 72-127: init_args; only declared locals *)
Definition init_args (o : option (list (ident * tlocal))) : option (list (ident * tlocal)) :=
  match parse_local o with
  | Some l => if existsb (fun p => match snd p with External => true | Declared => false end) l then None else Some l
  | None => None
  end.
(* syntax/parse.rs 129-187: idle_args *)
Definition mk_args sh lo : option args :=
  match parse_shared sh, parse_local lo with Some s, Some l => Some (mkArgs s l) | _, _ => None end.
(* syntax/parse.rs 189-345: task_args *)
Definition task_args (r : rawtask) : option (hwtask + swtask) :=
  if (match rt_prio r with Some p => 255 <? p | None => false end) then None else
  match mk_args (rt_shared r) (rt_local r) with
  | None => None
  | Some a =>
      match rt_binds r with
      | Some b => let p := match rt_prio r with Some p => p | None => 1 end in
                  if p =? 0 then None else Some (inl (mkHw b p a))
      | None => let p := match rt_prio r with Some p => p | None => 0 end in
                Some (inr (mkSw p a (rt_inputs r) (match rt_local_task r with Some b => b | None => false end)))
      end
  end.

(* syntax/parse/app.rs 174-218: the variables of App::parse *)
Record pst := mkP {
  p_init : option (ident * list (ident * tlocal) * ident * ident);
  p_idle : option (ident * args);
  p_sid : option ident; p_shared : list (ident * sres);
  p_lid : option ident; p_local : list (ident * ty);
  p_hw : list (ident * hwtask); p_sw : list (ident * swtask);
  p_seen : list ident; p_bind : list ident }.
Definition pst0 := mkP None None None [] None [] [] [] [] [].

(* syntax/parse/app.rs 220-507: one item of the module *)
Definition parse_item (s : pst) (i : item) : option pst :=
  match i with
  | IInit n lo sn ln =>                                                         (* 224-243 *)
      match init_args lo with
      | None => None
      | Some l => match p_init s with
                  | Some _ => None
                  | None => if mem n (p_seen s) then None else
                            Some (mkP (Some (n, l, sn, ln)) (p_idle s) (p_sid s) (p_shared s) (p_lid s) (p_local s) (p_hw s) (p_sw s) (n :: p_seen s) (p_bind s))
                  end
      end
  | IIdle n sh lo =>                                                            (* 244-263 *)
      match mk_args sh lo with
      | None => None
      | Some a => match p_idle s with
                  | Some _ => None
                  | None => if mem n (p_seen s) then None else
                            Some (mkP (p_init s) (Some (n, a)) (p_sid s) (p_shared s) (p_lid s) (p_local s) (p_hw s) (p_sw s) (n :: p_seen s) (p_bind s))
                  end
      end
  | ITask n r =>                                                                (* 264-299 *)
      if ihas (p_hw s) n || ihas (p_sw s) n then None else
      match task_args r with
      | None => None
      | Some (inl t) => if mem (hw_binds t) (p_bind s) then None else if mem n (p_seen s) then None else
                        Some (mkP (p_init s) (p_idle s) (p_sid s) (p_shared s) (p_lid s) (p_local s) (iinsert (p_hw s) n t) (p_sw s) (n :: p_seen s) (hw_binds t :: p_bind s))
      | Some (inr t) => if mem n (p_seen s) then None else
                        Some (mkP (p_init s) (p_idle s) (p_sid s) (p_shared s) (p_lid s) (p_local s) (p_hw s) (iinsert (p_sw s) n t) (n :: p_seen s) (p_bind s))
      end
  | IShared n fs =>                                                             (* 309-346: the second struct is refused only if the first had fields *)
      match p_shared s with
      | _ :: _ => None
      | [] => match no_dups [] fs with
              | None => None
              | Some m => Some (mkP (p_init s) (p_idle s) (Some n) m (p_lid s) (p_local s) (p_hw s) (p_sw s) (p_seen s) (p_bind s))
              end
      end
  | ILocal n fs =>                                                              (* 347-384 *)
      match p_local s with
      | _ :: _ => None
      | [] => match no_dups [] fs with
              | None => None
              | Some m => Some (mkP (p_init s) (p_idle s) (p_sid s) (p_shared s) (Some n) m (p_hw s) (p_sw s) (p_seen s) (p_bind s))
              end
      end
  end.
Fixpoint parse_items (s : pst) (l : list item) : option pst :=
  match l with [] => Some s | i :: l' => match parse_item s i with Some s' => parse_items s' l' | None => None end end.
(* syntax/parse/app.rs 87-129: the dispatchers argument, each interrupt listed once *)
Fixpoint parse_disp (acc l : list ident) : option (list ident) :=
  match l with [] => Some acc | d :: l' => if mem d acc then None else parse_disp (acc ++ [d]) l' end.
(* syntax/parse/app.rs 173-549: App::parse; 509-531: what must be there and the struct names [init] returns *)
Definition parse_app (disp : list ident) (items : list item) : option app :=
  match parse_disp [] disp, parse_items pst0 items with
  | Some d, Some s =>
      match p_sid s, p_lid s, p_init s with
      | Some sid, Some lid, Some (n, l, sn, ln) =>
          if ieq sid sn && ieq lid ln then Some (mkApp d (n, l) (p_idle s) (p_shared s) (p_local s) (p_hw s) (p_sw s)) else None
      | _, _, _ => None
      end
  | _, _ => None
  end.

(** ** syntax/accessors.rs *)
(* 9-32: shared_resource_accesses: idle, hardware tasks, software tasks *)
Definition accesses (a : app) : list (nat * ident * access) :=
  (match ap_idle a with Some (_, ar) => map (fun x => (0, fst x, snd x)) (a_shared ar) | None => [] end) ++
  flat_map (fun t => map (fun x => (hw_prio (snd t), fst x, snd x)) (a_shared (hw_args (snd t)))) (ap_hw a) ++
  flat_map (fun t => map (fun x => (sw_prio (snd t), fst x, snd x)) (a_shared (sw_args (snd t)))) (ap_sw a).
(* 34-36 *)
Definition is_external (x : ident * tlocal) : bool := match snd x with External => true | Declared => false end.
Definition externals (l : list (ident * tlocal)) : list ident := map fst (filter is_external l).
(* 38-66: local_resource_accesses *)
Definition local_accesses (a : app) : list ident :=
  externals (snd (ap_init a)) ++
  (match ap_idle a with Some (_, ar) => externals (a_local ar) | None => [] end) ++
  flat_map (fun t => externals (a_local (hw_args (snd t)))) (ap_hw a) ++
  flat_map (fun t => externals (a_local (sw_args (snd t)))) (ap_sw a).
(* 78-112: declared_local_resources, (task, resource) *)
Definition declareds (n : ident) (l : list (ident * tlocal)) : list (ident * ident) :=
  map (fun x => (n, fst x)) (filter (fun x => negb (is_external x)) l).
Definition declared_locals (a : app) : list (ident * ident) :=
  declareds (fst (ap_init a)) (snd (ap_init a)) ++
  (match ap_idle a with Some (n, ar) => declareds n (a_local ar) | None => [] end) ++
  flat_map (fun t => declareds (fst t) (a_local (hw_args (snd t)))) (ap_hw a) ++
  flat_map (fun t => declareds (fst t) (a_local (sw_args (snd t)))) (ap_sw a).

(** ** syntax/check.rs 7-66 *)
Definition is_excl (x : access) : bool := match x with Exclusive => true | SharedRef => false end.
Definition syntax_check (a : app) : bool :=
  forallb (fun x => ihas (ap_shared a) (snd (fst x))) (accesses a) &&                        (* 11-22 *)
  forallb (fun x => ihas (ap_local a) x) (local_accesses a) &&                               (* 24-31 *)
  (let excl := map (fun x => snd (fst x)) (filter (fun x => is_excl (snd x)) (accesses a)) in
   forallb (fun x => negb (negb (is_excl (snd x)) && mem (snd (fst x)) excl)) (accesses a)) &&(* 33-51 *)
  forallb (fun t => negb (mem (hw_binds (snd t)) (ap_disp a))) (ap_hw a).                    (* 53-63 *)

(** ** syntax/analyze.rs *)
(* 19-60: task_resources_list *)
Definition task_list (a : app) : list (ident * list ident * list (ident * tlocal) * nat) :=
  [(fst (ap_init a), [], snd (ap_init a), 0)] ++
  (match ap_idle a with Some (n, ar) => [(n, map fst (a_shared ar), a_local ar, 0)] | None => [] end) ++
  map (fun t => (fst t, map fst (a_shared (sw_args (snd t))), a_local (sw_args (snd t)), sw_prio (snd t))) (ap_sw a) ++
  map (fun t => (fst t, map fst (a_shared (hw_args (snd t))), a_local (hw_args (snd t)), hw_prio (snd t))) (ap_hw a).

(* 62-133: the lock_free check.  State: an error was pushed, lf_hash (last priority per resource), lf_res_with_error *)
Record lfst := mkLf { lf_err : bool; lf_hash : list (ident * nat); lf_bad : list ident }.
(* 77-107 *)
Definition lf_use (a : app) (lf task : ident) (prio : nat) (s : lfst) (r : ident) : lfst :=
  if ieq lf r then
    let err := lf_err s || ihas (ap_sw a) task in
    let bad := match iget (lf_hash s) r with
               | Some p0 => let b := if negb (prio =? p0) then lf_bad s ++ [r; r] else lf_bad s in
                            if mem r b then b ++ [r; r] else b
               | None => lf_bad s
               end in
    mkLf err (iinsert (lf_hash s) r prio) bad
  else s.
Definition lf_loop (a : app) : lfst :=
  fold_left (fun s lf =>
    fold_left (fun s t => let '(task, tr, _, prio) := t in fold_left (lf_use a lf task prio) tr s) (task_list a) s)
    (map fst (filter (fun r => sr_lock_free (snd r)) (ap_shared a))) (mkLf false [] []).
(* 112-133: errors for every entry of lf_res_with_error *)
Definition lf_error (a : app) : bool := lf_err (lf_loop a) || match lf_bad (lf_loop a) with [] => false | _ => true end.

(* 135-176: the check of local resources.  State: lr_hash (keys), lr_with_error *)
Record lrst := mkLr { lr_hash : list ident; lr_bad : list ident }.
Definition lr_use (lr : ident) (s : lrst) (x : ident * tlocal) : lrst :=
  if ieq lr (fst x) then
    match snd x with
    | External => mkLr (fst x :: lr_hash s) (if mem (fst x) (lr_hash s) then lr_bad s ++ [fst x; fst x] else lr_bad s)
    | Declared => mkLr (lr_hash s) (lr_bad s ++ [lr; fst x])
    end
  else s.
Definition lr_loop (a : app) : lrst :=
  fold_left (fun s lr => fold_left (fun s t => let '(_, _, locals, _) := t in fold_left (lr_use lr) locals s) (task_list a) s)
    (map fst (ap_local a)) (mkLr [] []).
Definition lr_error (a : app) : bool := match lr_bad (lr_loop a) with [] => false | _ => true end.
(* 178-192: priority 0 and idle *)
Definition zero_error (a : app) : bool :=
  existsb (fun t => (sw_prio (snd t) =? 0) && match ap_idle a with Some _ => true | None => false end) (ap_sw a).

(* 374-392: Ownership *)
Inductive ownership := Owned (p : nat) | CoOwned (p : nat) | Contended (c : nat).
Definition own_prio (o : ownership) : nat := match o with Owned p | CoOwned p | Contended p => p end.
(* 205-240: one access; state: used_shared_resource, ownerships, sync_types *)
Record anst := mkAn { an_used : list ident; an_own : list (ident * ownership); an_sync : list ty }.
Definition set_insert (l : list ident) (x : ident) : list ident := if mem x l then l else l ++ [x].
Definition tset_insert (l : list ty) (x : ty) : list ty := if existsb (Nat.eqb x) l then l else l ++ [x].
Definition own_step (a : app) (s : anst) (x : nat * ident * access) : anst :=
  let '(priority, name, ac) := x in
  let used := set_insert (an_used s) name in
  match iget (an_own s) name with
  | Some o =>
      if negb (priority =? own_prio o) then
        mkAn used (iinsert (an_own s) name (Contended (Nat.max (own_prio o) priority)))
          (match ac, iget (ap_shared a) name with SharedRef, Some r => tset_insert (an_sync s) (sr_ty r) | _, _ => an_sync s end)
      else mkAn used (match o with Owned _ => iinsert (an_own s) name (CoOwned priority) | _ => an_own s end) (an_sync s)
  | None => mkAn used (iinsert (an_own s) name (Owned priority)) (an_sync s)
  end.
Definition own_loop (a : app) : anst := fold_left (own_step a) (accesses a) (mkAn [] [] []).
(* 242-258: local resources; their ownership goes into the same map as that of the shared resources *)
Definition loc_step (prio : nat) (s : list ident * list (ident * ownership)) (x : ident * tlocal) : list ident * list (ident * ownership) :=
  (set_insert (fst s) (fst x), match snd x with External => iinsert (snd s) (fst x) (Owned prio) | Declared => snd s end).
Definition loc_loop (a : app) (o : list (ident * ownership)) : list ident * list (ident * ownership) :=
  fold_left (fun s t => let '(_, _, locals, prio) := t in fold_left (loc_step prio) locals s) (task_list a) ([], o).
(* 260-291: Send is needed above priority 0 *)
Definition needs_send (o : list (ident * ownership)) (n : ident) : bool :=
  match iget o n with Some w => negb (own_prio w =? 0) | None => false end.
(* 293-307: channels and the arguments of software tasks *)
Definition chan_insert (m : list (nat * list ident)) (p : nat) (n : ident) : list (nat * list ident) :=
  if existsb (fun c => fst c =? p) m then map (fun c => if fst c =? p then (fst c, set_insert (snd c) n) else c) m else m ++ [(p, [n])].

(* 316-335: Analysis.  [channels] is a BTreeMap of BTreeSets; here in order of insertion (only membership matters). *)
Record analysis := mkAna {
  y_channels : list (nat * list ident);
  y_shared : list ident; y_local : list ident;
  y_own : list (ident * ownership);
  y_send : list ty; y_sync : list ty }.
(* 14-317: app *)
Definition analyze (a : app) : option analysis :=
  if lf_error a || lr_error a || zero_error a then None else                                  (* 194-199 *)
  let s := own_loop a in
  let '(ulocal, own) := loc_loop a (an_own s) in
  let send1 := fold_left (fun l r => if needs_send own (fst r) then tset_insert l (sr_ty (snd r)) else l) (ap_shared a) [] in
  let send2 := fold_left (fun l r => if needs_send own (fst r) then tset_insert l (snd r) else l) (ap_local a) send1 in
  let send3 := fold_left (fun l t => if sw_local_task (snd t) then l else fold_left tset_insert (sw_inputs (snd t)) l) (ap_sw a) send2 in
  let chans := fold_left (fun m t => chan_insert m (sw_prio (snd t)) (fst t)) (ap_sw a) [] in
  Some (mkAna chans (an_used s) ulocal own send3 (an_sync s)).

(** ** Backends *)
Inductive bkind := Cortex (prio_bits : nat) | Esp32c3 | Esp32c6 | Slic.
(* BTreeSet<u8>: ascending *)
Fixpoint sorted_insert (l : list nat) (x : nat) : list nat :=
  match l with [] => [x] | y :: l' => if x <? y then x :: l else if x =? y then l else y :: sorted_insert l' x end.
Definition sw_prios (a : app) : list nat := fold_left (fun l t => sorted_insert l (sw_prio (snd t))) (ap_sw a) [].
Definition nz_prios (a : app) : list nat := filter (fun p => 0 <? p) (sw_prios a).
Definition exceptions : list ident :=
  ["NonMaskableInt"; "HardFault"; "MemoryManagement"; "BusFault"; "UsageFault"; "SecureFault"; "SVCall"; "DebugMonitor"; "PendSV"; "SysTick"]%string.
(* codegen/bindings/cortex.rs 16-31: is_exception *)
Definition is_exception (n : ident) : bool :=
  mem n ["MemoryManagement"; "BusFault"; "UsageFault"; "SecureFault"; "SVCall"; "DebugMonitor"; "PendSV"; "SysTick"]%string.
(* decimal digits, for format!("__RTICDispatcher{i}") *)
Definition digit (n : nat) : ascii := ascii_of_nat (48 + n).
Fixpoint digits (fuel n : nat) : string :=
  match fuel with 0 => EmptyString | S f => if n <? 10 then String (digit n) EmptyString else append (digits f (n / 10)) (String (digit (n mod 10)) EmptyString) end.
Definition slic_disp (i : nat) : ident := append "__RTICDispatcher" (digits (S i) i).
(* pre_init_preprocessing: cortex.rs 185-187, esp32c3.rs, esp32c6.rs: nothing; riscv_slic.rs 66-91 *)
Definition preprocess (b : bkind) (a : app) : option app :=
  match b with
  | Slic => match ap_disp a with
            | [] => Some (mkApp (fold_left (fun l i => set_insert l (slic_disp i)) (seq 0 (length (nz_prios a))) [])
                            (ap_init a) (ap_idle a) (ap_shared a) (ap_local a) (ap_hw a) (ap_sw a))
            | _ => None
            end
  | _ => Some a
  end.
(* architecture_specific_analysis: cortex.rs 267-331, esp32c3.rs 120-167, esp32c6.rs 125-172, riscv_slic.rs 126-160 *)
Definition enough (a : app) : bool := length (nz_prios a) <=? length (ap_disp a).
Definition arch_check (b : bkind) (a : app) : bool :=
  match b with
  | Cortex _ => negb (existsb (fun d => mem d exceptions) (ap_disp a)) && enough a &&
                forallb (fun t => negb (mem (hw_binds (snd t)) ["NonMaskableInt"; "HardFault"]%string)) (ap_hw a)
  | Esp32c3 | Esp32c6 => forallb (fun d => mem d ["FROM_CPU_INTR0"; "FROM_CPU_INTR1"; "FROM_CPU_INTR2"; "FROM_CPU_INTR3"]%string) (ap_disp a) && enough a
  | Slic => enough a
  end.

(** ** rtic-macros/src/analyze.rs 26-72 *)
(* 46-58: highest priority first, each takes the last dispatcher left *)
Fixpoint pop_each (ps : list nat) (rd : list ident) : option (list (nat * ident)) :=
  match ps with
  | [] => Some []
  | p :: ps' => match rd with [] => None | d :: rd' => match pop_each ps' rd' with Some l => Some ((p, d) :: l) | None => None end end
  end.
(* the BTreeMap, ascending; [None]: the assert of 42-45 *)
Definition interrupts (a : app) : option (list (nat * ident)) :=
  match pop_each (rev (nz_prios a)) (rev (ap_disp a)) with Some l => Some (rev l) | None => None end.
(* 60-65 *)
Definition max_async_prio (a : app) : option nat :=
  match map (fun t => hw_prio (snd t)) (ap_hw a) with [] => None | p :: l => Some (fold_left Nat.min l p - 1) end.
(* the static RTIC_ASYNC_MAX_LOGICAL_PRIO: cortex.rs 349-363, riscv_slic.rs 181-193, esp32c3.rs 189-201, esp32c6.rs 194-206 *)
Definition async_limit (b : bkind) (a : app) : nat :=
  match max_async_prio a with Some m => m | None => match b with Cortex bits => 2 ^ bits | _ => 255 end end.

(** ** Generated code *)
(* pre_init_enable_interrupts: cortex.rs 204-265, esp32c3.rs 85-118, esp32c6.rs 90-123, riscv_slic.rs 108-123.
   What the start-up code configures: (interrupt, priority), dispatchers first. *)
Definition to_configure (a : app) (ints : list (nat * ident)) : list (ident * nat) :=
  map (fun x => (snd x, fst x)) ints ++ map (fun t => (hw_binds (snd t), hw_prio (snd t))) (ap_hw a).
(* esp32c6.rs 97-104: zipped with the twelve CPU interrupts, so the rest is left out *)
Definition configured (b : bkind) (a : app) (ints : list (nat * ident)) : list (ident * nat) :=
  match b with Esp32c6 => firstn 12 (to_configure a ints) | _ => to_configure a ints end.
(* the compile-time assertions there: cortex.rs 227 and 255, esp32c3.rs 106-107, esp32c6.rs 111-112 *)
Definition prio_supported (b : bkind) (p : nat) : bool :=
  match b with Cortex bits => p <=? 2 ^ bits | Esp32c3 | Esp32c6 => (p <? 15) && (1 <=? p) | Slic => true end.

Record expansion := mkX { x_app : app; x_ana : analysis; x_ints : list (nat * ident) }.
(* lib.rs 33-52: the whole macro, and the assertions the compiler evaluates *)
Definition expand (b : bkind) (disp : list ident) (items : list item) : option expansion :=
  match parse_app disp items with
  | None => None
  | Some a =>
      if negb (syntax_check a) then None else
      match analyze a with
      | None => None
      | Some y =>
          match preprocess b a with
          | None => None
          | Some a' =>
              if negb (arch_check b a') then None else
              match interrupts a' with
              | None => None
              | Some ints => if forallb (fun c => prio_supported b (snd c)) (configured b a' ints) then Some (mkX a' y ints) else None
              end
          end
      end
  end.

(* codegen/shared_resources.rs 88-92: the ceiling in the generated lock *)
Definition ceiling (x : expansion) (n : ident) : nat := match iget (y_own (x_ana x)) n with Some o => own_prio o | None => 0 end.
(* codegen/hardware_tasks.rs 19-49, async_dispatchers.rs 13-93: interrupt handlers, with the priority given to
   [run] and the tasks they run *)
Definition chan (x : expansion) (p : nat) : list ident := match find (fun c => fst c =? p) (y_channels (x_ana x)) with Some c => snd c | None => [] end.
Definition vectors (x : expansion) : list (ident * nat * list ident) :=
  map (fun t => (hw_binds (snd t), hw_prio (snd t), [fst t])) (ap_hw (x_app x)) ++
  map (fun i => (snd i, fst i, chan x (fst i))) (x_ints x).
(* codegen/main.rs 17-25: what runs in thread mode after start-up *)
Definition thread_tasks (x : expansion) : list ident := match ap_idle (x_app x) with Some (n, _) => [n] | None => chan x 0 end.
(* codegen/util.rs 10-12, 139-149: names of the statics *)
Definition internal (s : string) : ident := append "__rtic_internal_" s.
Definition shared_static (n : ident) : ident := internal (append "shared_resource_" n).
Definition local_static (n : ident) : ident := internal (append "local_resource_" n).
Definition declared_static (task n : ident) : ident := internal (append "local_" (append task (append "_" n))).
(* codegen/module.rs 101-127, 205-272: who can call [spawn] of software task [target] without [unsafe]: everyone
   (re-exported) unless it is a local_task; then the software tasks of the same priority (LocalSpawner) *)
Definition can_spawn (a : app) (spawner : option ident) (target : ident) : bool :=
  match iget (ap_sw a) target with
  | None => false
  | Some t => if sw_local_task t
              then match spawner with
                   | Some s => match iget (ap_sw a) s with Some u => sw_prio u =? sw_prio t | None => false end
                   | None => false
                   end
              else true
  end.
