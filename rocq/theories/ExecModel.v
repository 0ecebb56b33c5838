(** Model of the async executor: rtic/src/export/executor.rs 205-292 ([AsyncTaskExecutor]), the generated
    [spawn] function and waker (rtic-macros/src/codegen/module.rs 166-203) and the generated dispatcher
    (rtic-macros/src/codegen/async_dispatchers.rs 41-90), as a transition system for one dispatcher and the
    software tasks of its priority.
    - Contexts [c] are all other activities (tasks, interrupts, the polled futures themselves) that spawn and
      wake; they interleave with the dispatcher after every atomic access.  This over-approximates preemption
      by priority.
    - A future is an instance number with its arguments; what it does when polled is left open (it may be
      accompanied by any spawns and wakes, and ends Ready or Pending).
    - Polling anything but a live future (memory uninitialised, or a future that already returned Ready) is
      undefined behaviour or a panic: [ebug] is set and the execution ends.
    - A pass begins with [LDispatch] (Cortex-M: entering the handler clears the pend bit) or with [LAccept]
      followed by a step that clears it in software (ESP32-C3/C6, [async_entry]); both are possible at any
      time, so the theorems hold for each target.
    - [zero]: the priority-0 dispatcher, an endless loop without interrupt (async_dispatchers.rs 80-88).
    - The storage (ExecutorHolder, lines 82-200) is in LayoutModel.  Not modelled: memory orderings. *)
From Verif Require Import Base LTS.
Set Implicit Arguments.

Section Exec.
Context {V : Type} (zero : bool) (tasks : list nat).

Inductive fut := FNone | FLive (id : nat) (v : V) | FDone (id : nat).

Inductive dpc :=
| DIdle
| DEnter (ts : list nat)             (* ESP32: handler entered, before [unpend] (esp32c3.rs 177-187) *)
| DAt (ts : list nat)                (* before [is_running] (line 279) of the first of ts *)
| DChk (t : nat) (ts : list nat)     (* [is_running] was true, before [check_and_clear_pending] *)
| DIn (t : nat) (ts : list nat)      (* inside [future.poll], line 284 *)
| DFin (t : nat) (ts : list nat).    (* Ready returned, before [running.store(false)], line 286 *)

Inductive cpc :=
| CIdle
| CWrite (t id : nat) (v : V)        (* try_allocate succeeded, before the write, line 266 *)
| CSet (t id : nat) (v : V)          (* before set_pending, line 268 *)
| CPend (t : nat) (o : option (nat * V)).   (* before [pend]; [None]: a waker, [Some]: spawn *)

Inductive xevent :=
| XAlloc (t id : nat) (v : V)        (* spawn of t accepted: instance id *)
| XOk (c t id : nat) (v : V)         (* that spawn returned Ok *)
| XErr (c t : nat) (v : V)           (* spawn returned Err(v) *)
| XWoke (c t : nat)                  (* a call of t's waker returned *)
| XPoll (t id : nat) (v : V)         (* the future of instance id is polled *)
| XEnd (t id : nat).                 (* instance id is finished and its executor free *)

Record ex := mkE {
  running : nat -> bool;             (* lines 208-209 *)
  pending : nat -> bool;
  slot : nat -> fut;                 (* line 207 *)
  irq : bool;                        (* dispatcher interrupt pended *)
  dp : dpc;
  ctx : nat -> cpc;
  nid : nat;                         (* history: next instance number *)
  ebug : bool;
  elog : list xevent
}.

(** lines 222-230, [new] *)
Definition ex_new : ex := mkE (fun _ => false) (fun _ => false) (fun _ => FNone) false DIdle (fun _ => CIdle) 0 false [].

Definition xemit (s : ex) (e : xevent) : ex := mkE (running s) (pending s) (slot s) (irq s) (dp s) (ctx s) (nid s) (ebug s) (elog s ++ [e]).
Definition set_dp (s : ex) (d : dpc) : ex := mkE (running s) (pending s) (slot s) (irq s) d (ctx s) (nid s) (ebug s) (elog s).
Definition set_ctx (s : ex) (c : nat) (p : cpc) : ex := mkE (running s) (pending s) (slot s) (irq s) (dp s) (upd (ctx s) c p) (nid s) (ebug s) (elog s).
Definition set_running (s : ex) (t : nat) (b : bool) : ex := mkE (upd (running s) t b) (pending s) (slot s) (irq s) (dp s) (ctx s) (nid s) (ebug s) (elog s).
Definition set_pending (s : ex) (t : nat) (b : bool) : ex := mkE (running s) (upd (pending s) t b) (slot s) (irq s) (dp s) (ctx s) (nid s) (ebug s) (elog s).
Definition set_slot (s : ex) (t : nat) (f : fut) : ex := mkE (running s) (pending s) (upd (slot s) t f) (irq s) (dp s) (ctx s) (nid s) (ebug s) (elog s).
Definition set_irq (s : ex) (b : bool) : ex := mkE (running s) (pending s) (slot s) b (dp s) (ctx s) (nid s) (ebug s) (elog s).
Definition set_nid (s : ex) (n : nat) : ex := mkE (running s) (pending s) (slot s) (irq s) (dp s) (ctx s) n (ebug s) (elog s).
Definition set_ebug (s : ex) : ex := mkE (running s) (pending s) (slot s) (irq s) (dp s) (ctx s) (nid s) true (elog s).

(** module.rs 175-184 with try_allocate (executor.rs 253-259): the first atomic step of [spawn]. *)
Definition do_spawn (s : ex) (c t : nat) (v : V) : ex :=
  if running s t then xemit s (XErr c t v)
  else xemit (set_nid (set_ctx (set_running s t true) c (CWrite t (nid s) v)) (S (nid s))) (XAlloc t (nid s) v).

(** next step of a context *)
Definition ctx_step (s : ex) (c : nat) : option ex :=
  match ctx s c with
  | CWrite t id v => Some (set_ctx (set_slot s t (FLive id v)) c (CSet t id v))          (* executor.rs 265-267 *)
  | CSet t id v => Some (set_ctx (set_pending s t true) c (CPend t (Some (id, v))))      (* 268 *)
  | CPend t o =>                                                                         (* module.rs 113 / 198 *)
      Some (xemit (set_ctx (set_irq s (if zero then irq s else true)) c CIdle)
                  (match o with Some (id, v) => XOk c t id v | None => XWoke c t end))
  | CIdle => None
  end.

(** next step of the dispatcher, executor.rs 278-291 for each task in turn; [ready]: what a poll returns *)
Definition disp_step (s : ex) (ready : bool) : option ex :=
  match dp s with
  | DIdle => None
  | DEnter ts => Some (set_dp (set_irq s false) (DAt ts))                                (* [unpend], riscv_esp32c3.rs 109-131 *)
  | DAt [] => Some (set_dp s DIdle)
  | DAt (t :: ts) => Some (set_dp s (if running s t then DChk t ts else DAt ts))         (* 279, is_running *)
  | DChk t ts =>                                                                         (* 279, check_and_clear *)
      if pending s t then
        match slot s t with
        | FLive id v => Some (xemit (set_dp (set_pending s t false) (DIn t ts)) (XPoll t id v))
        | _ => Some (set_ebug (set_pending s t false))
        end
      else Some (set_dp s (DAt ts))
  | DIn t ts =>                                                                          (* 284-289 *)
      if ready then match slot s t with
                    | FLive id v => Some (set_dp (set_slot s t (FDone id)) (DFin t ts))
                    | _ => None
                    end
      else Some (set_dp s (DAt ts))
  | DFin t ts =>                                                                         (* 286 *)
      match slot s t with
      | FDone id => Some (xemit (set_dp (set_running s t false) (DAt ts)) (XEnd t id))
      | _ => None
      end
  end.

Inductive xlabel :=
| LSpawn (c t : nat) (v : V)
| LWake (c t : nat)                 (* waker call: set_pending (module.rs 197) *)
| LCtx (c : nat)
| LDispatch                         (* the dispatcher starts a pass; Cortex-M: the hardware clears the pend bit *)
| LAccept                           (* ESP32: the dispatcher's handler is entered, the interrupt stays pended *)
| LDisp (ready : bool).

Definition xstep (s : ex) (l : xlabel) : option ex :=
  if ebug s then None else
  match l with
  | LSpawn c t v => match ctx s c with
                    | CIdle => if in_dec Nat.eq_dec t tasks then Some (do_spawn s c t v) else None
                    | _ => None
                    end
  | LWake c t => match ctx s c with
                 | CIdle => if in_dec Nat.eq_dec t tasks then Some (set_ctx (set_pending s t true) c (CPend t None)) else None
                 | _ => None
                 end
  | LCtx c => ctx_step s c
  | LDispatch => match dp s with
                 | DIdle => if (zero || irq s)%bool then Some (set_dp (set_irq s false) (DAt tasks)) else None
                 | _ => None
                 end
  | LAccept => match dp s with
               | DIdle => if (negb zero && irq s)%bool then Some (set_dp s (DEnter tasks)) else None
               | _ => None
               end
  | LDisp r => disp_step s r
  end.
End Exec.
