(** Model of [DoublyLinkedList<Waker>::wait_until], rtic-common/src/wait_queue.rs lines 228-271, with any
    number of concurrent waiters and arbitrary other code that changes the awaited condition and pops
    the queue (the notifiers).

    The queue is the FIFO list that wait_queue.rs has been proved to refine (WaitQueueProofs.v); an
    entry is (waiter, waker stored in its link).  Each critical section of the Rust code is one step;
    the evaluation of the user's closure [f] (line 246) is a step of its own, because it is outside
    every critical section.  Simplifications: [f] is a pure function of the shared condition state [G]
    (the Rust closure is [FnMut]); each waiter runs one wait_until call. *)
From Verif Require Import Base LTS.
Set Implicit Arguments.

Section WaitUntil.
Context {G T : Type} (f : nat -> G -> option T).   (* the closure of each waiter *)

Inductive wpc :=
| WNew                      (* future created, never polled *)
| WCleaned (w : nat)        (* line 244 done, about to call f; [w] = waker of this poll *)
| WPush (w : nat)           (* f returned None, about to push the new link (lines 255-265) *)
| WSleep (w : nat)          (* returned Poll::Pending (line 267) *)
| WDone (v : T)             (* returned Poll::Ready (line 247) *)
| WDropped.                 (* future dropped *)

Record wst := mkWst {
  w_g : G;                          (* shared condition *)
  w_q : list (nat * nat);           (* the wait queue: (waiter, waker) *)
  w_pc : nat -> wpc;
  w_woken : nat -> bool             (* history: has the waker of this waiter's current link been taken
                                       out of the queue by [pop] (and so woken) since its last poll began *)
}.

Definition w_init (g : G) : wst := mkWst g [] (fun _ => WNew) (fun _ => false).

Inductive wlabel :=
| LPoll (i w : nat)      (* executor polls waiter i with waker w *)
| LEval (i : nat)
| LPush (i : nat)
| LDrop (i : nat)
| LSet (g : G)           (* any other code changes the condition *)
| LPop.                  (* any other code pops the queue and wakes what it popped *)

Definition del (i : nat) (q : list (nat * nat)) := filter (fun p => negb (Nat.eqb (fst p) i)) q.

Definition wstep (s : wst) (l : wlabel) : option wst :=
  match l with
  | LPoll i w =>
      match w_pc s i with
      | WNew | WSleep _ =>                       (* 244: remove the old link, set the place to None *)
          Some (mkWst (w_g s) (del i (w_q s)) (upd (w_pc s) i (WCleaned w)) (upd (w_woken s) i false))
      | _ => None
      end
  | LEval i =>
      match w_pc s i with
      | WCleaned w =>                            (* 246 *)
          match f i (w_g s) with
          | Some v => Some (mkWst (w_g s) (w_q s) (upd (w_pc s) i (WDone v)) (w_woken s))
          | None => Some (mkWst (w_g s) (w_q s) (upd (w_pc s) i (WPush w)) (w_woken s))
          end
      | _ => None
      end
  | LPush i =>
      match w_pc s i with
      | WPush w =>                               (* 255-267 *)
          Some (mkWst (w_g s) (w_q s ++ [(i, w)]) (upd (w_pc s) i (WSleep w)) (w_woken s))
      | _ => None
      end
  | LDrop i =>                                   (* destructor: OnDropWith::drop, dropper.rs 56-60 *)
      match w_pc s i with
      | WNew | WSleep _ | WDone _ =>
          Some (mkWst (w_g s) (del i (w_q s)) (upd (w_pc s) i WDropped) (w_woken s))
      | _ => None
      end
  | LSet g => Some (mkWst g (w_q s) (w_pc s) (w_woken s))
  | LPop =>
      match w_q s with
      | [] => Some s
      | (i, _) :: q => Some (mkWst (w_g s) q (w_pc s) (upd (w_woken s) i true))
      end
  end.

End WaitUntil.
