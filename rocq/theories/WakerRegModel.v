(** Model of rtic-common/src/waker_registration.rs, [CriticalSectionWakerRegistration].
    A waker is identified with the task it wakes: [Waker::will_wake] is equality of identifiers.
    Both operations run inside one critical section (lines 25, 57), so they are atomic. *)
From Verif Require Import Base.
Set Implicit Arguments.

(** lines 7-9: the stored [Option<Waker>]. *)
Definition wreg := option nat.

(** lines 16-20, [new]. *)
Definition wreg_new : wreg := None.

(** lines 24-53, [register]; the second component lists the wakers woken during the call. *)
Definition wreg_register (r : wreg) (w : nat) : wreg * list nat :=
  match r with
  | Some w2 => if Nat.eqb w2 w then (r, [])             (* 35: will_wake, keep *)
               else (Some w, [w2])                      (* 38-49: replace, wake the old one *)
  | None => (Some w, [])
  end.

(** lines 56-64, [wake]: take the waker and wake it. *)
Definition wreg_wake (r : wreg) : wreg * list nat :=
  match r with
  | Some w => (None, [w])
  | None => (None, [])
  end.

Inductive wreg_op := WRegister (w : nat) | WWake.

Definition wreg_step (r : wreg) (o : wreg_op) : wreg * list nat :=
  match o with WRegister w => wreg_register r w | WWake => wreg_wake r end.

(** Run a history; the second component is the sequence of wakers woken. *)
Fixpoint wreg_run (r : wreg) (ops : list wreg_op) : wreg * list nat :=
  match ops with
  | [] => (r, [])
  | o :: ops' => let (r1, k1) := wreg_step r o in
                 let (r2, k2) := wreg_run r1 ops' in (r2, k1 ++ k2)
  end.
