(** Model of rtic-sync/src/signal.rs and rtic-sync/src/watch.rs (a Watch is a Signal read differently) as a
    transition system: one step per critical section or atomic access, any number of writers and reader
    handles interleaving arbitrarily.  [Signal]'s and [Watch]'s own wrappers ([write]/[clear], [try_take_reader],
    [split], make_* macros) only call these.  Not modelled: memory orderings (single core), the loom variants. *)
From Verif Require Import Base LTS WakerRegModel.
Set Implicit Arguments.

Section Signal.
Context {V : Type}.

Inductive kind := KSignal | KWatch.

Inductive qpc :=
| QNone                               (* no reader under this handle *)
| QIdle
| QTake (w : nat)                     (* Signal wait: registered (213), before take (214) *)
| QSleep (w : nat)                    (* wait / changed returned Pending *)
| QSeen (w : nat)                     (* Watch changed: registered (181), before get_seen (183) *)
| QGet (o : option nat)               (* Watch: before get_inner; [Some w] in changed (187), [None] in try_get (165) *)
| QMark (o : option nat) (n : nat) (v : V).  (* Watch: value read, before mark_seen (190 / 168); history: n-th write *)

Inductive sevent :=
| VWrite (i : nat) (v : V)            (* writer i stored v *)
| VClear (i : nat)
| VTake (j : nat) (v : V)             (* try_read / wait returned v, evicting it *)
| VEmpty (j : nat)                    (* try_read returned None *)
| VEvict (j : nat)                    (* wait_fresh evicted what was stored *)
| VGet (j n : nat) (v : V)            (* try_get returned v, the n-th write *)
| VGetNone (j : nat)                  (* try_get returned None *)
| VChg (j n : nat) (v : V)            (* changed returned v, the n-th write *)
| VWake (w : nat)                     (* waker w was woken *)
| VReader (j : nat)                   (* try_take_reader returned a reader *)
| VNoReader (j : nat).                (* try_take_reader returned None *)

(** signal.rs lines 23-28; the rest is program counters and history *)
Record sig := mkS {
  store : option V;
  seen : bool;
  ralive : bool;
  swk : wreg;
  rd : nat -> qpc;
  wr : nat -> bool;            (* writer i has stored (147) and not yet called wake (149) *)
  s_woken : bool;              (* history: the waker of the latest registration was woken *)
  vers : nat;                  (* history: number of writes *)
  slog : list sevent           (* oldest first *)
}.

(** lines 50-57, [new] *)
Definition sig_new : sig := mkS None false false wreg_new (fun _ => QNone) (fun _ => false) false 0 [].

Definition semit (s : sig) (e : sevent) : sig :=
  mkS (store s) (seen s) (ralive s) (swk s) (rd s) (wr s) (s_woken s) (vers s) (slog s ++ [e]).
Definition set_rd (s : sig) (j : nat) (p : qpc) : sig :=
  mkS (store s) (seen s) (ralive s) (swk s) (upd (rd s) j p) (wr s) (s_woken s) (vers s) (slog s).
Definition set_store (s : sig) (o : option V) : sig :=
  mkS o (seen s) (ralive s) (swk s) (rd s) (wr s) (s_woken s) (vers s) (slog s).
Definition set_seen (s : sig) (b : bool) : sig :=
  mkS (store s) b (ralive s) (swk s) (rd s) (wr s) (s_woken s) (vers s) (slog s).
Definition set_alive (s : sig) (b : bool) : sig :=
  mkS (store s) (seen s) b (swk s) (rd s) (wr s) (s_woken s) (vers s) (slog s).

(** [register] by the reader (213 / watch.rs 181) *)
Definition do_register (s : sig) (w : nat) : sig :=
  let (r, k) := wreg_register (swk s) w in
  mkS (store s) (seen s) (ralive s) r (rd s) (wr s) false (vers s) (slog s ++ map VWake k).

(** [wake] by a writer (line 149) *)
Definition do_wake (s : sig) (i : nat) : sig :=
  let (r, k) := wreg_wake (swk s) in
  mkS (store s) (seen s) (ralive s) r (rd s) (upd (wr s) i false)
      (match k with [] => s_woken s | _ => true end) (vers s) (slog s ++ map VWake k).

(** the critical section of [write_inner], lines 141-147 *)
Definition do_write (s : sig) (i : nat) (v : V) : sig :=
  mkS (Some v) false (ralive s) (swk s) (rd s) (upd (wr s) i true) (s_woken s) (S (vers s)) (slog s ++ [VWrite i v]).
Definition do_clear (s : sig) (i : nat) : sig :=
  mkS None false (ralive s) (swk s) (rd s) (upd (wr s) i true) (s_woken s) (vers s) (slog s ++ [VClear i]).

Inductive slabel :=
| SWrite (i : nat) (v : V)        (* write, its critical section *)
| SClear (i : nat)                (* clear, its critical section *)
| SWake (i : nat)                 (* the rest of write / clear *)
| STakeReader (j : nat)           (* try_take_reader, signal.rs 98-104, watch.rs 65-71 *)
| SDropReader (j : nat)           (* signal.rs 168-172, watch.rs 125-129 *)
| STryRead (j : nat)              (* Signal try_read, 199-204 *)
| SFresh (j : nat)                (* Signal wait_fresh, first poll up to 229; then [SPoll] *)
| STryGet (j : nat)               (* Watch try_get called *)
| SPoll (j w : nat)               (* poll of wait / changed with waker w: the registration *)
| SStep (j : nat)                 (* the reader's next atomic step *)
| SCancel (j : nat).              (* the wait / changed future is dropped *)

(** One reader step after the registration. *)
Definition rstep (s : sig) (j : nat) : option sig :=
  match rd s j with
  | QTake w =>                                                   (* 211-220 with take, 188-194 *)
      match store s with
      | Some v => Some (semit (set_rd (set_store s None) j QIdle) (VTake j v))
      | None => Some (set_rd (set_store s None) j (QSleep w))
      end
  | QSeen w => Some (set_rd s j (if seen s then QSleep w else QGet (Some w)))   (* watch.rs 183-185 *)
  | QGet o =>                                                    (* watch.rs 145-151 in 165 / 187 *)
      match store s with
      | Some v => Some (set_rd s j (QMark o (vers s) v))
      | None => match o with
                | Some w => Some (set_rd s j (QSleep w))         (* 188 *)
                | None => Some (semit (set_rd s j QIdle) (VGetNone j))   (* 166 *)
                end
      end
  | QMark o n v =>                                               (* watch.rs 159-161 in 168 / 190 *)
      Some (semit (set_rd (set_seen s true) j QIdle) (match o with Some _ => VChg j n v | None => VGet j n v end))
  | _ => None
  end.

Definition sstep (k : kind) (s : sig) (l : slabel) : option sig :=
  match l with
  | SWrite i v => if wr s i then None else Some (do_write s i v)
  | SClear i => match k with KSignal => if wr s i then None else Some (do_clear s i) | KWatch => None end
  | SWake i => if wr s i then Some (do_wake s i) else None
  | STakeReader j =>
      match rd s j with
      | QNone => if ralive s then Some (semit s (VNoReader j))
                 else Some (semit (set_rd (set_alive s true) j QIdle) (VReader j))
      | _ => None
      end
  | SDropReader j => match rd s j with QIdle => Some (set_rd (set_alive s false) j QNone) | _ => None end
  | STryRead j =>
      match k, rd s j with
      | KSignal, QIdle => match store s with
                          | Some v => Some (semit (set_store s None) (VTake j v))
                          | None => Some (semit (set_store s None) (VEmpty j))
                          end
      | _, _ => None
      end
  | SFresh j => match k, rd s j with KSignal, QIdle => Some (semit (set_store s None) (VEvict j)) | _, _ => None end
  | STryGet j => match k, rd s j with KWatch, QIdle => Some (set_rd s j (QGet None)) | _, _ => None end
  | SPoll j w =>
      match rd s j with
      | QIdle | QSleep _ => Some (set_rd (do_register s w) j (match k with KSignal => QTake w | KWatch => QSeen w end))
      | _ => None
      end
  | SStep j => rstep s j
  | SCancel j => match rd s j with QSleep _ => Some (set_rd s j QIdle) | _ => None end
  end.
End Signal.
