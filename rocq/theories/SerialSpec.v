(** Specification: what it means that every closure of [lock] on a resource runs as if alone.
    Nothing here refers to the lock machine: only events of one variable. *)
From Verif Require Import Base LTS LockAccess.
Set Implicit Arguments.

Section Serial.
Context (V : Type).

(** The events on resource [r], in order. *)
Definition on (r : nat) (l : list (event V)) : list (event V) := filter (fun e => ev_res e =? r) l.

(** Accesses by one activation ([t] at depth [d]) to a variable that holds [v] before and [v'] after them: every read
    returns the current value. *)
Inductive accesses (r t d : nat) : V -> list (event V) -> V -> Prop :=
| acc_nil v : accesses r t d v [] v
| acc_read v l v' : accesses r t d v l v' -> accesses r t d v (l ++ [mkEv r t d (Read v')]) v'
| acc_write v l v' w : accesses r t d v l v' -> accesses r t d v (l ++ [mkEv r t d (Write w)]) w.

(** A serial history: whole closures, one after the other, each starting with the value the one before has left. *)
Inductive serial (r : nat) : V -> list (event V) -> V -> Prop :=
| ser_nil v : serial r v [] v
| ser_closure v l v1 t d body v2 : serial r v l v1 -> accesses r t d v1 body v2 ->
    serial r v (l ++ mkEv r t d Enter :: body ++ [mkEv r t d Exit]) v2.
End Serial.
