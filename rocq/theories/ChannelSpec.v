(** Specification vocabulary for the channel properties (C22-C30): who holds a slot, what the history of
    one sender's operations may look like.  No proofs. *)
From Verif Require Import Base LTS ChannelModel.
Set Implicit Arguments.

Section Spec.
Context {V : Type}.

(** the slot a sender's current operation owns: already handed to it ([free_slot_ptr]) or taken by it *)
Definition hheld (h : hst V) : option nat :=
  match h_pc h with
  | FWrite x _ | FPush x _ => Some x
  | SDrop1 (DOk x) _ | SDrop2 (DOk x) _ => Some x
  | _ => h_slot h
  end.
(** the slot the receiver is reading out *)
Definition rheld (r : rpc V) : option nat :=
  match r with RRead _ x | RRet _ x _ | RDrop x => Some x | _ => None end.

(** the places a slot can be in *)
Inductive site := AtFree | AtReady | AtSender (j : nat) | AtReceiver.
Definition located (s : chan V) (x : nat) (p : site) : Prop :=
  match p with
  | AtFree => In x (freeq s)
  | AtReady => In x (readyq s)
  | AtSender j => hheld (hs s j) = Some x
  | AtReceiver => rheld (recv s) = Some x
  end.

(** the Sender handle exists (has been created and not dropped) *)
Definition alive (p : hpc V) : bool := match p with HNone | HGone | HDropWake => false | _ => true end.

(** events of the operations of handle [j] *)
Definition about (j : nat) (e : event V) : bool :=
  match e with
  | EStart k _ | ECommit k _ | ESent k _ | EFull k _ | ENoRecv k _ | ECancel k _ => Nat.eqb k j
  | _ => false
  end.

(** [ops j l]: [l] is a sequence of finished operations of handle [j], each with a legal outcome:
    committed once and reported Ok, or not committed and the same value given back / dropped. *)
Inductive ops (j : nat) : list (event V) -> Prop :=
| ops_nil : ops j []
| ops_sent l v : ops j l -> ops j (l ++ [EStart j v; ECommit j v; ESent j v])
| ops_full l v : ops j l -> ops j (l ++ [EStart j v; EFull j v])
| ops_norecv l v : ops j l -> ops j (l ++ [EStart j v; ENoRecv j v])
| ops_cancel l v : ops j l -> ops j (l ++ [EStart j v; ECancel j v]).

(** values dropped by Receiver::drop *)
Fixpoint drops (l : list (event V)) : list V :=
  match l with [] => [] | EDropV v :: r => v :: drops r | _ :: r => drops r end.

(** the events a step appends to the history *)
Definition emits (s s' : chan V) (e : event V) : Prop := exists evs, log s' = log s ++ evs /\ In e evs.

(** own steps an operation still needs (an upper bound) *)
Definition steps_left (p : hpc V) : nat :=
  match p with
  | TClosed _ | SDrop1 _ _ => 5 | TPop _ | SDrop2 _ _ => 4 | FWrite _ _ => 3 | FPush _ _ => 2 | FWake _ => 1 | HDropWake => 1
  | _ => 0
  end.
(** the handle whose own action a label is *)
Definition owner (l : label V) : option nat :=
  match l with
  | LSplit => Some 0 | LClone _ k => Some k
  | LTry j _ | LSend j _ | LPoll j _ | LStep j | LCancel j | LDropS j => Some j
  | _ => None
  end.

(** the operation in progress, if any, has not obtained a slot to write yet (or never will) *)
Definition uncommitted (p : hpc V) : bool :=
  match p with
  | HNone | HIdle | TClosed _ | SNew _ | SWait _ | HDropWake | HGone => true
  | SDrop1 DErr _ | SDrop1 DCancel _ | SDrop2 DErr _ | SDrop2 DCancel _ => true
  | _ => false
  end.

End Spec.
