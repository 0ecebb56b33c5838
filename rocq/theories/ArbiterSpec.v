(** Specification vocabulary for the arbiter, over the log of API-visible events and the states of clients. *)
From Verif Require Import Base LTS ArbiterModel.
Set Implicit Arguments.

(** [guard_history l o]: in the log [l] guards are granted only when none exists and released only by their
    owner; [o] is the owner of the guard at the end, if there is one. *)
Inductive guard_history : list aevent -> option nat -> Prop :=
| gh_nil : guard_history [] None
| gh_grant l j n : guard_history l None -> guard_history (l ++ [GGrant j n]) (Some j)
| gh_release l j : guard_history l (Some j) -> guard_history (l ++ [GRelease j]) None
| gh_other l o e : (match e with GGrant _ _ | GRelease _ => False | _ => True end) ->
    guard_history l o -> guard_history (l ++ [e]) o.

(** Ticket numbers in the order in which clients begin to wait. *)
Fixpoint waits (l : list aevent) : list nat :=
  match l with [] => [] | GWait _ n :: r => n :: waits r | _ :: r => waits r end.
(** Ticket numbers of the waiters in the order in which they get the guard. *)
Fixpoint granted (l : list aevent) : list nat :=
  match l with [] => [] | GGrant _ (Some n) :: r => n :: granted r | _ :: r => granted r end.

Section Spec.
Context {V : Type}.
Implicit Types s : @arb V.

(** [j] has a guard *)
Definition holds s j : Prop := a_pc (cl s j) = AHold.
(** [j] has obtained the arbiter: it has a guard, or its future is about to return one, or it was handed the
    arbiter while waiting *)
Definition has_it s j : Prop :=
  holds s j \/ a_pc (cl s j) = AReady \/ (a_pc (cl s j) = AWait /\ a_link (cl s j) = KPopped).
(** [j] waits in the queue *)
Definition waiting s j : Prop := a_pc (cl s j) = AWait /\ a_link (cl s j) = KQueued.

Definition areach (v : V) s : Prop := reach astep (arb_new v) s.

(** The arbiter is stuck: marked taken although nobody has it. *)
Definition lost s : Prop := taken s = true /\ awq s = [] /\ forall j, ~ has_it s j.
End Spec.
