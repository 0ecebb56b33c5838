(** What it means for the whole application to come to rest. *)
From Verif Require Import Base LTS LockModel ExecModel SystemModel.
Set Implicit Arguments.

Section Spec.
Context {V : Type} (B : backend) (P : sapp).

(** A step by which the system closes what has been begun: user code does nothing but return (from a closure, from a
    task, to its executor), open calls go on, interrupts that are pended are taken, handlers go on.  No new interrupt,
    spawn, wake or lock; thread mode (idle, or the endless loop of the priority-0 dispatcher) takes no step but to
    leave its locks and to finish its calls. *)
Definition closing (s : sys V B) (l : ylabel V) : bool :=
  match l with
  | YRaise _ | YLock _ | YUser _ _ _ | YEnv _ _ _ _ => false
  | YHandler | YDone _ => match m_stack (y_m s) with f :: _ => match f_line f with Some _ => true | None => false end | [] => false end
  | YTake _ | YMicro | YUnlock | YCall | YEnvCall _ => true
  end.
Definition cstep (s : sys V B) (l : ylabel V) : option (sys V B) := if closing s l then ystep P s l else None.

(** At rest: thread mode runs, in no lock; no interrupt is pended, no dispatcher in a pass, no call of [spawn] or of a
    waker open. *)
Record at_rest (s : sys V B) : Prop := {
  AR_stack : exists f, m_stack (y_m s) = [f] /\ f_line f = None /\ f_ents f = [];
  AR_pend : forall i, y_pend s i = false;
  AR_disp : forall i, irq (y_x s (Some i)) = false /\ dp (y_x s (Some i)) = DIdle;
  AR_call : forall c, y_call s c = None
}.
(** A dispatcher has polled an executor whose future is not written (C17). *)
Definition bad_poll (s : sys V B) : Prop := exists k, ebug (y_x s k) = true.
End Spec.
