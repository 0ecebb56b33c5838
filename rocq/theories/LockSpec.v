(** Specification vocabulary for locks: which task is inside which lock. *)
From Verif Require Import Base LTS LockModel.
Set Implicit Arguments.

Section Spec.
Context (B : backend) (A : lapp).
Implicit Types (s : mach B) (f : frame B).

(** The handler [f] is inside the closure of [lock] on [r]. *)
Definition holds f r : Prop := exists e, In e (f_ents f) /\ e_res e = r /\ e_ph e = PHeld.
(** ... or anywhere in that call of [lock]. *)
Definition in_lock f r : Prop := exists e, In e (f_ents f) /\ e_res e = r.
(** Task [t] is run by the handler [f]. *)
Definition may_run f t : Prop := l_line A t = f_line f.

(** What is going on, without the saved register values: the active handlers and their open lock calls. *)
Definition activity s : list (option nat * option nat * list (nat * phase)) :=
  map (fun f => (f_line f, f_task f, map (fun e => (e_res e, e_ph e)) (f_ents f))) (m_stack s).

Definition mreach m0 (x0 : bs B) s : Prop := reach (@mstep B A) (m_init B m0 x0) s.

(** Well-formed applications: interrupt priorities start at 1; every task's priority is at most the ceiling of
    each resource it uses; ceilings do not exceed the highest priority [top]. *)
Definition app_ok top : Prop :=
  (forall i, In i (l_lines A) -> 1 <= l_prio A i <= top) /\
  (forall t r, l_uses A t r = true -> tprio A t <= l_ceil A r) /\
  (forall r, l_ceil A r <= top).

(** No other task that uses a resource runs while a handler is inside the closure of [lock] on it: the handlers
    that have preempted it run only tasks that do not use the resource, no other handler is inside a closure on
    it, and the handler itself has one reference to it. *)
Definition excl_on r s : Prop :=
  forall above f below, m_stack s = above ++ f :: below -> holds f r ->
    (forall g t, In g above -> may_run g t -> l_uses A t r = false) /\
    (forall g, In g (above ++ below) -> ~ holds g r) /\
    (exists l1 e l2, f_ents f = l1 ++ e :: l2 /\ e_res e = r /\ forall e', In e' (l1 ++ l2) -> e_res e' <> r).
Definition mutual_exclusion s : Prop := forall r, excl_on r s.

(** Steps that bring the running task and handler to their end without new interrupts, tasks or locks. *)
Definition finishing (l : mlabel) : Prop := match l with LStop | LMicro | LUnlock | LRet => True | _ => False end.
(** Thread mode, nothing running, no lock open. *)
Definition all_idle s : Prop := activity s = [(None, None, [])].
End Spec.
