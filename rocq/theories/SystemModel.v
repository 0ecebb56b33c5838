(** Model of a whole running application: the machine of LockModel (handlers, preemption, locks) with one executor
    state of ExecModel for each dispatcher, step by step together.
    - rtic-macros/src/codegen/hardware_tasks.rs 24-49: the handler of a hardware task calls it once;
    - rtic-macros/src/codegen/async_dispatchers.rs 41-90: the handler of a dispatcher polls its tasks in turn, the
      priority-0 dispatcher loops in thread mode; codegen/main.rs 17-25: or thread mode runs idle;
    - rtic-macros/src/codegen/module.rs 166-203: [spawn] and the wakers, called by the running task (also inside a
      lock), or by an interrupt handler that is no task (the timer of a monotonic), store by store;
    - codegen/bindings/cortex.rs (the hardware clears the pend bit on entry), esp32c3.rs 177-187, esp32c6.rs ([unpend]
      in the handler).
    A task that is running is the one on top of the stack; everything below it waits.  Simplifications: as in LockModel and
    ExecModel; an interrupt handler that is no task may act at any time; [idle] does not return. *)
From Verif Require Import Base LTS LockModel ExecModel.
Set Implicit Arguments.

Record sapp := mkSA {
  sa_lock : lapp;
  sa_hw : nat -> option nat;             (* the hardware task bound to a line; [None]: a dispatcher *)
  sa_polls : option nat -> list nat;     (* the tasks polled by the dispatcher of a line ([None]: thread mode) *)
  sa_idle : option nat;                  (* idle, if there is one *)
  sa_unpend : bool;                      (* ESP32: a dispatcher clears its pend bit itself *)
  sa_env : list nat                      (* interrupt handlers that are no tasks *)
}.

Definition updo {X} (f : option nat -> X) (k : option nat) (v : X) : option nat -> X :=
  fun j => match j, k with None, None => v | Some a, Some b => if Nat.eqb a b then v else f j | _, _ => f j end.

Section System.
Context {V : Type} (B : backend) (P : sapp).
Notation A := (sa_lock P).

Record sys := mkY {
  y_m : mach B;
  y_x : option nat -> @ex V;             (* the executors of each dispatcher *)
  y_pend : nat -> bool;                  (* pend bits of the hardware tasks' interrupts *)
  y_ran : nat -> bool;                   (* that handler has called its task *)
  y_call : nat -> option (option nat)    (* the dispatcher whose spawn or waker a context is inside of *)
}.
Definition y_init (m0 : bm B) (x0 : bs B) : sys := mkY (m_init B m0 x0) (fun _ => ex_new) (fun _ => false) (fun _ => false) (fun _ => None).

(** contexts of ExecModel: thread mode, the handlers, other interrupt handlers *)
Definition hctx (o : option nat) : nat := match o with None => 0 | Some i => 2 * i + 2 end.
Definition ectx (c : nat) : nat := 2 * c + 1.

Definition is_zero (k : option nat) : bool := match k with None => true | Some _ => false end.
Definition xs (k : option nat) : @ex V -> xlabel -> option (@ex V) := xstep (is_zero k) (sa_polls P k).
Definition xdo (s : sys) (k : option nat) (l : xlabel) : option sys :=
  match xs k (y_x s k) l with Some e => Some (mkY (y_m s) (updo (y_x s) k e) (y_pend s) (y_ran s) (y_call s)) | None => None end.
Definition mdo (s : sys) (l : mlabel) : option sys :=
  match mstep A (y_m s) l with Some m => Some (mkY m (y_x s) (y_pend s) (y_ran s) (y_call s)) | None => None end.
Definition bind {X Y} (o : option X) (f : X -> option Y) : option Y := match o with Some x => f x | None => None end.

(** the dispatcher a handler (or thread mode) is, if it is one *)
Definition disp_of (o : option nat) : option (option nat) :=
  match o with
  | Some i => match sa_hw P i with Some _ => None | None => Some (Some i) end
  | None => match sa_idle P with Some _ => None | None => Some None end
  end.
Definition free (s : sys) (c : nat) : bool := match y_call s c with None => true | Some _ => false end.

(** a dispatcher's next step; when it starts to poll a task, the task runs *)
Definition dstep (s : sys) (k : option nat) (r : bool) : option sys :=
  bind (xdo s k (LDisp r)) (fun s' => match dp (y_x s' k) with DIn t _ => mdo s' (LStart t) | _ => Some s' end).

(** the running handler's next step outside user code *)
Definition hstep (s : sys) (f : frame B) : option sys :=
  match f_task f with
  | Some _ => None
  | None =>
      match disp_of (f_line f), f_line f with
      | Some k, _ => match dp (y_x s k), k with
                     | DIdle, Some _ => mdo s LRet
                     | DIdle, None => xdo s None LDispatch                        (* async_dispatchers.rs 82-86: loop *)
                     | DIn _ _, _ => None
                     | _, _ => dstep s k false
                     end
      | None, Some i => if y_ran s i then mdo s LRet
                        else bind (match sa_hw P i with Some t => mdo s (LStart t) | None => None end)
                                  (fun s' => Some (mkY (y_m s') (y_x s') (y_pend s') (upd (y_ran s') i true) (y_call s')))
      | None, None => match sa_idle P with Some t => mdo s (LStart t) | None => None end
      end
  end.
(** the running task returns or suspends; [r]: its future returned Ready *)
Definition done (s : sys) (f : frame B) (r : bool) : option sys :=
  match f_task f, f_ents f with
  | Some _, [] => match disp_of (f_line f), f_line f with
                  | Some k, _ => bind (xdo s k (LDisp r)) (fun s' => mdo s' LStop)
                  | None, Some _ => mdo s LStop
                  | None, None => None
                  end
  | _, _ => None
  end.
(** a call of [spawn] or of a waker goes on, until it returns *)
Definition after_call (c : nat) (k : option nat) (s : sys) : sys :=
  mkY (y_m s) (y_x s) (y_pend s) (y_ran s) (upd (y_call s) c (match ctx (y_x s k) c with CIdle => None | _ => Some k end)).
Definition ucall (s : sys) (c : nat) (k : option nat) (t : nat) (o : option V) : option sys :=
  if free s c then bind (xdo s k (match o with Some v => LSpawn c t v | None => LWake c t end)) (fun s' => Some (after_call c k s')) else None.
Definition go_on (s : sys) (c : nat) : option sys :=
  match y_call s c with Some k => bind (xdo s k (LCtx c)) (fun s' => Some (after_call c k s')) | None => None end.
(** the hardware takes interrupt [i] *)
Definition take (s : sys) (i : nat) : option sys :=
  match sa_hw P i with
  | Some _ => if y_pend s i then bind (mdo s (LTake i)) (fun s' => Some (mkY (y_m s') (y_x s') (upd (y_pend s') i false) (upd (y_ran s') i false) (y_call s'))) else None
  | None => if irq (y_x s (Some i)) then bind (xdo s (Some i) (if sa_unpend P then LAccept else LDispatch)) (fun s' => mdo s' (LTake i)) else None
  end.

Inductive ylabel :=
| YRaise (i : nat)                                         (* the interrupt of a hardware task is pended *)
| YTake (i : nat)
| YHandler                                                 (* the running handler goes on, outside tasks *)
| YDone (r : bool)                                         (* the running task returns or suspends *)
| YLock (r : nat) | YMicro | YUnlock                       (* as in LockModel, by the running task *)
| YUser (k : option nat) (t : nat) (o : option V)          (* the running task spawns ([Some]) or wakes task t of dispatcher k *)
| YCall                                                    (* ... that call goes on *)
| YEnv (c : nat) (k : option nat) (t : nat) (o : option V) (* an interrupt handler that is no task does so *)
| YEnvCall (c : nat).

Definition ystep (s : sys) (l : ylabel) : option sys :=
  match m_stack (y_m s) with
  | [] => None
  | f :: _ =>
      let c := hctx (f_line f) in
      match l with
      | YRaise i => match sa_hw P i with
                    | Some _ => if existsb (Nat.eqb i) (l_lines A) then Some (mkY (y_m s) (y_x s) (upd (y_pend s) i true) (y_ran s) (y_call s)) else None
                    | None => None
                    end
      | YTake i => take s i
      | YHandler => if free s c then hstep s f else None
      | YDone r => if free s c then done s f r else None
      | YLock r => if free s c then mdo s (LLock r) else None
      | YMicro => mdo s LMicro
      | YUnlock => if free s c then mdo s LUnlock else None
      | YUser k t o => match f_task f with Some _ => if calm (f_ents f) then ucall s c k t o else None | None => None end
      | YCall => go_on s c
      | YEnv e k t o => if existsb (Nat.eqb e) (sa_env P) then ucall s (ectx e) k t o else None
      | YEnvCall e => go_on s (ectx e)
      end
  end.
End System.
Arguments sys : clear implicits.
Arguments ylabel : clear implicits.
