(** Model of rtic-sync/src/arbiter.rs as a transition system: one step per critical section, any number of
    clients interleaving arbitrarily.  A client [j] is one place in the program that holds at most one
    [access] future or guard at a time.
    - The wait queue is the FIFO list that wait_queue.rs refines (WaitQueueProofs.v).
    - Not modelled: [fence]s (single core); [Deref]/[DerefMut] (lines 183-195) are the step [LSet]. *)
From Verif Require Import Base LTS.
Set Implicit Arguments.

Section Arbiter.
Context {V : Type}.

(** link_ptr of the access future: none / in the list / popped (line 76) *)
Inductive alk := KNone | KQueued | KPopped.

Inductive apc :=
| AIdle
| AWait        (* access future exists and has not completed *)
| AReady       (* poll_fn returned Ready, drop(dropper) (line 127) still to run *)
| AHold.       (* an ExclusiveAccess exists *)

Record client := mkA {
  a_pc : apc;
  a_link : alk;
  a_waker : nat;             (* waker stored in the link *)
  a_woken : bool;            (* history: that waker was woken *)
  a_seq : option nat         (* history: when it began to wait, if it did *)
}.
Definition a0 : client := mkA AIdle KNone 0 false None.

Inductive aevent :=
| GWait (j n : nat)                      (* j begins to wait, as n-th *)
| GWake (j w : nat)                      (* j is handed the arbiter and its waker w woken *)
| GGrant (j : nat) (n : option nat)      (* a guard is returned to j, which had begun to wait as n-th *)
| GRelease (j : nat)                     (* the guard of j is dropped *)
| GNone (j : nat)                        (* try_access returned None *)
| GCancel (j : nat).                     (* access future dropped before completion *)

(** lines 53-57 *)
Record arb := mkArb {
  awq : list nat;
  taken : bool;
  inner : V;
  cl : nat -> client;
  aseq : nat;
  alog : list aevent        (* oldest first *)
}.

(** lines 64-71, [new] *)
Definition arb_new (v : V) : arb := mkArb [] false v (fun _ => a0) 0 [].

Definition aemit (s : arb) (e : aevent) : arb := mkArb (awq s) (taken s) (inner s) (cl s) (aseq s) (alog s ++ [e]).
Definition set_cl (s : arb) (j : nat) (c : client) : arb := mkArb (awq s) (taken s) (inner s) (upd (cl s) j c) (aseq s) (alog s).
Definition set_taken (s : arb) (b : bool) : arb := mkArb (awq s) b (inner s) (cl s) (aseq s) (alog s).
Definition set_awq (s : arb) (q : list nat) : arb := mkArb q (taken s) (inner s) (cl s) (aseq s) (alog s).
Definition set_apc (s : arb) (j : nat) (p : apc) : arb :=
  let c := cl s j in set_cl s j (mkA p (a_link c) (a_waker c) (a_woken c) (a_seq c)).

Definition queue_empty (s : arb) : bool := match awq s with [] => true | _ => false end.

(** lines 91-124, the closure of [poll_fn] *)
Definition do_poll (s : arb) (j w : nat) : arb :=
  let c := cl s j in
  if (queue_empty s && negb (taken s))%bool then                       (* 96 *)
    set_apc (set_taken s true) j AReady                                (* 97-99 *)
  else match a_link c with
       | KPopped => set_apc s j AReady                                 (* 105-108 *)
       | KQueued => s                                                  (* 123 *)
       | KNone =>                                                      (* 109-123 *)
           let n := aseq s in
           aemit (mkArb (awq s ++ [j]) (taken s) (inner s)
                        (upd (cl s) j (mkA AWait KQueued w false (Some n))) (S n) (alog s)) (GWait j n)
       end.

(** lines 83-88, the dropper: [remove_from_list] does nothing to a popped link (wait_queue.rs 145-153) *)
Definition remove_link (s : arb) (j : nat) : arb :=
  match a_link (cl s j) with
  | KQueued => set_awq s (remove Nat.eq_dec j (awq s))
  | _ => s
  end.

(** lines 140-157, [try_access] *)
Definition do_try (s : arb) (j : nat) : arb :=
  if (queue_empty s && negb (taken s))%bool
  then aemit (set_cl (set_taken s true) j (mkA AHold KNone 0 false None)) (GGrant j None)
  else aemit s (GNone j).

(** lines 166-180, [ExclusiveAccess::drop] *)
Definition do_release (s : arb) (j : nat) : arb :=
  let s1 := aemit (set_cl s j a0) (GRelease j) in
  match awq s1 with
  | [] => set_taken s1 false                                           (* 170-172 *)
  | k :: q =>                                                          (* 173-176 *)
      let c := cl s1 k in
      aemit (set_cl (set_awq s1 q) k (mkA (a_pc c) KPopped (a_waker c) true (a_seq c))) (GWake k (a_waker c))
  end.

Inductive alabel :=
| AAccess (j : nat)          (* call [access] *)
| APoll (j w : nat)          (* poll the access future with waker w *)
| AFinish (j : nat)          (* lines 127-133: drop(dropper), build the guard *)
| ACancel (j : nat)          (* drop the access future: the dropper runs *)
| ATry (j : nat)
| ARelease (j : nat)         (* drop the guard *)
| ASet (j : nat) (v : V).    (* write through the guard *)

Definition astep (s : arb) (l : alabel) : option arb :=
  match l with
  | AAccess j => match a_pc (cl s j) with AIdle => Some (set_cl s j (mkA AWait KNone 0 false None)) | _ => None end
  | APoll j w => match a_pc (cl s j) with AWait => Some (do_poll s j w) | _ => None end
  | AFinish j =>
      match a_pc (cl s j) with
      | AReady => let s1 := remove_link s j in
                  Some (aemit (set_cl s1 j (mkA AHold KNone 0 false None)) (GGrant j (a_seq (cl s j))))
      | _ => None
      end
  | ACancel j =>
      match a_pc (cl s j) with
      | AWait => Some (aemit (set_cl (remove_link s j) j a0) (GCancel j))
      | _ => None
      end
  | ATry j => match a_pc (cl s j) with AIdle => Some (do_try s j) | _ => None end
  | ARelease j => match a_pc (cl s j) with AHold => Some (do_release s j) | _ => None end
  | ASet j v => match a_pc (cl s j) with
                | AHold => Some (mkArb (awq s) (taken s) v (cl s) (aseq s) (alog s))
                | _ => None
                end
  end.
End Arbiter.
