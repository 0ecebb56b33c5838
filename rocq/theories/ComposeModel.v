(** The executor of ExecModel.v together with the things its tasks await (channels, arbiters, signals, watches,
    delays), as one transition system.  This is where the two halves of a wake-up meet: a component calls the
    waker it was given (rtic-macros/src/codegen/module.rs 182-203: the waker of a software task sets the
    task's pending flag and pends its dispatcher), and the executor polls the task (executor.rs 278-291).

    - One dispatcher with its [tasks] is modelled exactly; all other tasks, interrupts and dispatchers are
      environment: they take component steps, spawn and wake at any moment.
    - A task's waker is identified with the task's number, as in ExecModel.v ([LWake]); a component step that
      calls wakers leaves the calls in [y_todo], and each call is later executed as the executor's [LWake] by any
      context.  Other steps may come in between (in the code, a waker is called in the same critical section or
      right after it; this allows more).
    - A future is polled with the waker of a modelled task only from inside that task's own poll ([DIn]): the
      dispatcher builds the context from the task's waker (async_dispatchers.rs 41-90, executor.rs 284).
    - [y_fresh j]: the task owning future [j] has been polled since, and has not yet polled [j] again. *)
From Verif Require Import Base LTS ExecModel.
Set Implicit Arguments.

(** What the composition needs to know of a component with states [S], labels [L] and futures [F]. *)
Record component (S L F : Type) := mkComp {
  c_feq : forall a b : F, {a = b} + {a <> b};
  c_init : S;
  c_step : S -> L -> option S;
  c_guard : S -> L -> Prop;              (* the component's own side condition on schedules *)
  c_start : L -> option (F * nat);       (* the label begins a poll of a future with a waker *)
  c_owner : S -> F -> option nat;        (* waker of a future that is being polled or has returned Pending *)
  c_mid : S -> F -> bool;                (* ... whose poll is in progress *)
  c_woken : S -> F -> bool;              (* ... whose waker has been called since it was registered *)
  c_wakes : S -> L -> list nat           (* wakers called by the step *)
}.

(** Two components side by side. *)
Definition either_eq {A B : Type} (da : forall x y : A, {x = y} + {x <> y}) (db : forall x y : B, {x = y} + {x <> y}) :
  forall x y : A + B, {x = y} + {x <> y}.
Proof. decide equality. Defined.

Definition beside {S1 L1 F1 S2 L2 F2} (K1 : component S1 L1 F1) (K2 : component S2 L2 F2) : component (S1 * S2) (L1 + L2) (F1 + F2) :=
  mkComp (either_eq (c_feq K1) (c_feq K2))
    (c_init K1, c_init K2)
    (fun s l => match l with
                | inl l => option_map (fun x => (x, snd s)) (c_step K1 (fst s) l)
                | inr l => option_map (fun x => (fst s, x)) (c_step K2 (snd s) l)
                end)
    (fun s l => match l with inl l => c_guard K1 (fst s) l | inr l => c_guard K2 (snd s) l end)
    (fun l => match l with
              | inl l => option_map (fun p => (inl (fst p), snd p)) (c_start K1 l)
              | inr l => option_map (fun p => (inr (fst p), snd p)) (c_start K2 l)
              end)
    (fun s j => match j with inl j => c_owner K1 (fst s) j | inr j => c_owner K2 (snd s) j end)
    (fun s j => match j with inl j => c_mid K1 (fst s) j | inr j => c_mid K2 (snd s) j end)
    (fun s j => match j with inl j => c_woken K1 (fst s) j | inr j => c_woken K2 (snd s) j end)
    (fun s l => match l with inl l => c_wakes K1 (fst s) l | inr l => c_wakes K2 (snd s) l end).

(** Any number of components of one kind. *)
Definition pair_eq {B : Type} (db : forall x y : B, {x = y} + {x <> y}) : forall x y : nat * B, {x = y} + {x <> y}.
Proof. decide equality. apply Nat.eq_dec. Defined.

Definition many {S L F} (K : nat -> component S L F) : component (nat -> S) (nat * L) (nat * F) :=
  mkComp (pair_eq (c_feq (K 0)))
    (fun i => c_init (K i))
    (fun s l => option_map (fun x => upd s (fst l) x) (c_step (K (fst l)) (s (fst l)) (snd l)))
    (fun s l => c_guard (K (fst l)) (s (fst l)) (snd l))
    (fun l => option_map (fun p => ((fst l, fst p), snd p)) (c_start (K (fst l)) (snd l)))
    (fun s j => c_owner (K (fst j)) (s (fst j)) (snd j))
    (fun s j => c_mid (K (fst j)) (s (fst j)) (snd j))
    (fun s j => c_woken (K (fst j)) (s (fst j)) (snd j))
    (fun s l => c_wakes (K (fst l)) (s (fst l)) (snd l)).

Section Compose.
Context {V S L F : Type} (zero : bool) (tasks : list nat) (K : component S L F).

Record sys := mkY {
  y_c : S;
  y_e : @ex V;
  y_todo : list nat;           (* waker calls (of tasks of this dispatcher) not yet executed *)
  y_fresh : F -> bool
}.

Definition y_init : sys := mkY (c_init K) ex_new [] (fun _ => false).

Definition mine (t : nat) : bool := if in_dec Nat.eq_dec t tasks then true else false.

Inductive ylabel :=
| YComp (l : L)
| YWake (c t : nat)            (* context c executes a waker call that a component has made *)
| YExec (l : @xlabel V).       (* executor steps, including spawns and any other waker calls *)

(** a future may be polled with the waker of one of our tasks only inside that task's poll *)
Definition start_ok (y : sys) (l : L) : bool :=
  match c_start K l with
  | Some (_, t) => if mine t then match dp (y_e y) with DIn t' _ => Nat.eqb t' t | _ => false end else true
  | None => true
  end.

Definition not_started (l : L) (f : F -> bool) : F -> bool :=
  match c_start K l with
  | Some (j, _) => fun i => if c_feq K i j then false else f i
  | None => f
  end.

Fixpoint take_out (t : nat) (l : list nat) : list nat :=
  match l with [] => [] | x :: r => if Nat.eqb x t then r else x :: take_out t r end.

(** a new poll of task t: everything it awaits is now to be polled again *)
Definition polled (y : sys) (e' : @ex V) : F -> bool :=
  match dp (y_e y), dp e' with
  | DChk _ _, DIn t _ => fun j => match c_owner K (y_c y) j with
                                  | Some t' => if Nat.eqb t' t then true else y_fresh y j
                                  | None => y_fresh y j
                                  end
  | _, _ => y_fresh y
  end.

Definition ystep (y : sys) (l : ylabel) : option sys :=
  match l with
  | YComp l =>
      if start_ok y l then
        option_map (fun c' => mkY c' (y_e y) (y_todo y ++ filter mine (c_wakes K (y_c y) l)) (not_started l (y_fresh y)))
                   (c_step K (y_c y) l)
      else None
  | YWake c t =>
      if in_dec Nat.eq_dec t (y_todo y) then
        option_map (fun e' => mkY (y_c y) e' (take_out t (y_todo y)) (y_fresh y)) (xstep zero tasks (y_e y) (LWake c t))
      else None
  | YExec l => option_map (fun e' => mkY (y_c y) e' (y_todo y) (polled y e')) (xstep zero tasks (y_e y) l)
  end.

(** Side conditions on the tasks' code.  A poll of a task that returns Pending has polled again every future the
    task still holds with its waker (this is what [.await], [join] and [select] do), and is not in the middle of
    polling one; when a task ends, its futures have been dropped. *)
Definition yguard (y : sys) (l : ylabel) : Prop :=
  match l with
  | YComp l => c_guard K (y_c y) l
  | YWake _ _ => True
  | YExec (LDisp ready) =>
      forall t ts, dp (y_e y) = DIn t ts ->
      forall j, c_owner K (y_c y) j = Some t ->
      ready = false /\ c_mid K (y_c y) j = false /\ y_fresh y j = false
  | YExec _ => True
  end.

Definition yreach (y : sys) : Prop := greach ystep yguard y_init y.

(** Nothing is left to do: the dispatcher is idle and not pended, no spawn or waker call is under way. *)
Definition at_rest (y : sys) : Prop :=
  irq (y_e y) = false /\ dp (y_e y) = DIdle /\ (forall c, ctx (y_e y) c = CIdle) /\ y_todo y = [].
End Compose.
