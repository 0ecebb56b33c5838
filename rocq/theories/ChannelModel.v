(** Model of rtic-sync/src/channel.rs as a transition system: one step per critical section or unprotected
    slot access, any number of sender handles and one receiver interleaving arbitrarily.

    - A [Sender] handle is a number [j]; since [send]/[try_send]/[drop] borrow it mutably it runs one
      operation at a time, so its program counter describes the operation in progress.
    - The wait queue is the FIFO list that wait_queue.rs refines (WaitQueueProofs.v), holding handles.
    - [slots x = None] is uninitialised or moved-out memory.
    - [bug] becomes true where the Rust code would hit a failed debug_assert, undefined behaviour or an
      arithmetic underflow: pushing to a full deque (line 170, 347), reading an uninitialised slot
      (line 181), overwriting a value nobody has taken (line 340), [num_senders -= 1] at zero (535).
    - Not modelled: [fence]s and [compiler_fence]s (single core), the [loom] variants, [defmt]. *)
From Verif Require Import Base LTS WakerRegModel.
Set Implicit Arguments.

Section Channel.
Context {V : Type} (N : nat).

(** result of [poll_fn] in [send] that the dropper runs under (lines 428-492); [DCancel]: future dropped *)
Inductive dres := DOk (slot : nat) | DErr | DCancel.

Inductive hpc :=
| HNone                            (* handle not created yet *)
| HIdle
| TClosed (v : V)                  (* try_send: wait queue seen empty, before line 368 *)
| TPop (v : V)                     (* try_send: receiver seen alive, before line 372 *)
| SNew (v : V)                     (* send future created, never polled *)
| SWait (v : V)                    (* send future returned Pending *)
| SDrop1 (d : dres) (v : V)        (* dropper: about to remove the link, lines 410-412 *)
| SDrop2 (d : dres) (v : V)        (* dropper: about to take and return the slot, lines 417-422 *)
| FWrite (x : nat) (v : V)         (* send_footer: about to write slot x, line 340 *)
| FPush (x : nat) (v : V)          (* send_footer: about to push x to readyq, lines 344-353 *)
| FWake (v : V)                    (* send_footer: about to wake the receiver, line 357 *)
| HDropWake                        (* drop: last sender, about to wake, line 544 *)
| HGone.

(** link_ptr of the send future: none / in the list / popped *)
Inductive lk := LNone | LQueued | LPopped.

Record hst := mkH {
  h_pc : hpc;
  h_link : lk;
  h_slot : option nat;       (* free_slot_ptr *)
  h_waker : nat;             (* waker stored in the link *)
  h_woken : bool;            (* history: that waker has been woken *)
  h_seq : nat                (* history: position in the order of starting to wait *)
}.
Definition h0 : hst := mkH HNone LNone None 0 false 0.

Inductive rpc :=
| RNone
| RIdle
| RReg (w : nat)             (* recv polled, before line 625 *)
| RPop (w : option nat)      (* before line 593; [Some w] when called from recv *)
| RRead (w : option nat) (x : nat)             (* popped x, before line 602 *)
| RRet (w : option nat) (x : nat) (v : V)      (* read, before line 607 *)
| RChk (w : option nat)      (* readyq was empty, before line 610 *)
| RSleep (w : nat)           (* recv returned Pending *)
| RDrain                     (* drop: before the next readyq.pop_back, lines 675-680 *)
| RDrop (x : nat)            (* drop: popped x, about to read and drop the value, line 685 *)
| RWakeAll                   (* drop: before the next wait_queue.pop, line 688 *)
| RDead.

Inductive event :=
| EStart (j : nat) (v : V)          (* send / try_send called with v *)
| ECommit (j : nat) (v : V)         (* v became receivable *)
| ESent (j : nat) (v : V)           (* the operation returned Ok *)
| EFull (j : nat) (v : V)           (* try_send returned Full(v) *)
| ENoRecv (j : nat) (v : V)         (* returned NoReceiver(v) *)
| ECancel (j : nat) (v : V)         (* send future dropped before completion *)
| EHand (j : nat) (x : nat)         (* slot x handed to waiting sender j, which is woken *)
| EWakeS (j : nat)                  (* sender j woken because the receiver is gone *)
| ERecv (v : V)                     (* a receive returned v *)
| EEmpty | ENoSender                (* a receive returned Empty / NoSender *)
| EWakeR (w : nat)                  (* the receiver's waker w was woken *)
| EDropV (v : V).                   (* v dropped by Receiver::drop *)

Record chan := mkC {
  freeq : list nat;
  readyq : list nat;
  slots : nat -> option V;
  wq : list nat;
  rdropped : bool;
  nsend : nat;
  rwaker : wreg;
  hs : nat -> hst;
  recv : rpc;
  r_woken : bool;            (* history: the waker registered by the current recv has been woken *)
  bug : bool;
  seqno : nat;
  log : list event           (* oldest first *)
}.

(** lines 86-98, [new]. *)
Definition chan_new : chan :=
  mkC [] [] (fun _ => None) [] false 0 wreg_new (fun _ => h0) RNone false false 0 [].

Definition emit (s : chan) (e : event) : chan :=
  mkC (freeq s) (readyq s) (slots s) (wq s) (rdropped s) (nsend s) (rwaker s) (hs s) (recv s) (r_woken s) (bug s) (seqno s) (log s ++ [e]).
Definition set_freeq (s : chan) (q : list nat) : chan :=
  mkC q (readyq s) (slots s) (wq s) (rdropped s) (nsend s) (rwaker s) (hs s) (recv s) (r_woken s) (bug s) (seqno s) (log s).
Definition set_readyq (s : chan) (q : list nat) : chan :=
  mkC (freeq s) q (slots s) (wq s) (rdropped s) (nsend s) (rwaker s) (hs s) (recv s) (r_woken s) (bug s) (seqno s) (log s).
Definition set_slot (s : chan) (x : nat) (v : option V) : chan :=
  mkC (freeq s) (readyq s) (upd (slots s) x v) (wq s) (rdropped s) (nsend s) (rwaker s) (hs s) (recv s) (r_woken s) (bug s) (seqno s) (log s).
Definition set_wq (s : chan) (q : list nat) : chan :=
  mkC (freeq s) (readyq s) (slots s) q (rdropped s) (nsend s) (rwaker s) (hs s) (recv s) (r_woken s) (bug s) (seqno s) (log s).
Definition set_nsend (s : chan) (n : nat) : chan :=
  mkC (freeq s) (readyq s) (slots s) (wq s) (rdropped s) n (rwaker s) (hs s) (recv s) (r_woken s) (bug s) (seqno s) (log s).
Definition set_h (s : chan) (j : nat) (h : hst) : chan :=
  mkC (freeq s) (readyq s) (slots s) (wq s) (rdropped s) (nsend s) (rwaker s) (upd (hs s) j h) (recv s) (r_woken s) (bug s) (seqno s) (log s).
Definition set_recv (s : chan) (r : rpc) : chan :=
  mkC (freeq s) (readyq s) (slots s) (wq s) (rdropped s) (nsend s) (rwaker s) (hs s) r (r_woken s) (bug s) (seqno s) (log s).
Definition set_bug (s : chan) (b : bool) : chan :=
  mkC (freeq s) (readyq s) (slots s) (wq s) (rdropped s) (nsend s) (rwaker s) (hs s) (recv s) (r_woken s) (bug s || b) (seqno s) (log s).
Definition set_pc (s : chan) (j : nat) (p : hpc) : chan :=
  let h := hs s j in set_h s j (mkH p (h_link h) (h_slot h) (h_waker h) (h_woken h) (h_seq h)).

(** lines 115-140, [split]: creates handle 0 and the receiver. *)
Definition do_split (s : chan) : chan :=
  let b := match readyq s with [] => false | _ => true end in           (* 117 *)
  mkC (seq 0 N) (readyq s) (slots s) (wq s) (rdropped s) 1 (rwaker s)   (* 119-137 *)
      (upd (hs s) 0 (mkH HIdle LNone None 0 false 0)) RIdle (r_woken s) (bug s || b) (seqno s) (log s).

(** lines 155-176, [return_free_slot]. *)
Definition return_slot (s : chan) (x : nat) : chan :=
  match wq s with
  | j :: q =>
      let h := hs s j in
      emit (set_h (set_wq s q) j (mkH (h_pc h) LPopped (Some x) (h_waker h) true (h_seq h))) (EHand j x)
  | [] => set_bug (set_freeq s (freeq s ++ [x])) (N <=? length (freeq s))
  end.

(** WakerRegistration::wake *)
Definition wake_receiver (s : chan) : chan :=
  let (r, k) := wreg_wake (rwaker s) in
  mkC (freeq s) (readyq s) (slots s) (wq s) (rdropped s) (nsend s) r (hs s) (recv s)
      (match k with [] => r_woken s | _ => true end) (bug s) (seqno s) (log s ++ map EWakeR k).

(** WakerRegistration::register by the receiver (line 625) *)
Definition register_receiver (s : chan) (w : nat) : chan :=
  let (r, k) := wreg_register (rwaker s) w in
  mkC (freeq s) (readyq s) (slots s) (wq s) (rdropped s) (nsend s) r (hs s) (recv s) false (bug s) (seqno s)
      (log s ++ map EWakeR k).

Inductive label :=
| LSplit
| LClone (j k : nat)
| LTry (j : nat) (v : V)
| LSend (j : nat) (v : V)
| LPoll (j w : nat)
| LStep (j : nat)            (* next step of the operation of handle j *)
| LCancel (j : nat)
| LDropS (j : nat)           (* drop the Sender handle *)
| LTryRecv
| LRecv (w : nat)            (* poll recv with waker w *)
| LRStep
| LRCancel                   (* drop a pending recv future *)
| LDropR.                    (* drop the Receiver *)

(** the critical section of one poll of [send], lines 430-491 *)
Definition send_poll (s : chan) (j w : nat) (v : V) : chan :=
  let h := hs s j in
  if rdropped s then set_pc s j (SDrop1 DErr v)                                        (* 432-434 *)
  else match h_link h with
       | LPopped =>                                                                    (* 446-463 *)
           set_h s j (mkH (SDrop1 (match h_slot h with Some x => DOk x | None => DErr end) v)
                          LNone None (h_waker h) (h_woken h) (h_seq h))
       | LQueued => set_pc s j (SWait v)                                               (* 465 *)
       | LNone =>
           match wq s, freeq s with
           | [], _ :: _ =>                                                             (* 481-489: pop_back *)
               set_pc (set_freeq s (removelast (freeq s))) j (SDrop1 (DOk (last (freeq s) 0)) v)
           | _, _ =>                                                                   (* 468-479 *)
               let s1 := set_wq s (wq s ++ [j]) in
               let s2 := set_h s1 j (mkH (SWait v) LQueued (h_slot h) w false (seqno s)) in
               mkC (freeq s2) (readyq s2) (slots s2) (wq s2) (rdropped s2) (nsend s2) (rwaker s2) (hs s2)
                   (recv s2) (r_woken s2) (bug s2) (S (seqno s2)) (log s2)
           end
       end.

Definition finish (s : chan) (j : nat) (e : event) : chan := emit (set_pc s j HIdle) e.

Definition step (s : chan) (l : label) : option chan :=
  match l with
  | LSplit =>
      match recv s with
      | RNone => Some (do_split s)
      | _ => None
      end
  | LClone j k =>                                                                      (* 549-559 *)
      match h_pc (hs s j), h_pc (hs s k) with
      | HIdle, HNone => Some (set_nsend (set_h s k (mkH HIdle LNone None 0 false 0)) (S (nsend s)))
      | _, _ => None
      end
  | LTry j v =>                                                                        (* 361-365 *)
      match h_pc (hs s j) with
      | HIdle => let s := emit s (EStart j v) in
                 match wq s with
                 | [] => Some (set_pc s j (TClosed v))
                 | _ => Some (emit s (EFull j v))
                 end
      | _ => None
      end
  | LSend j v =>
      match h_pc (hs s j) with
      | HIdle => Some (set_pc (emit s (EStart j v)) j (SNew v))
      | _ => None
      end
  | LPoll j w =>
      match h_pc (hs s j) with
      | SNew v | SWait v => Some (send_poll s j w v)
      | _ => None
      end
  | LCancel j =>
      match h_pc (hs s j) with
      | SNew v => Some (finish s j (ECancel j v))                (* body never started: only val dropped *)
      | SWait v => Some (set_pc s j (SDrop1 DCancel v))
      | _ => None
      end
  | LStep j =>
      let h := hs s j in
      match h_pc h with
      | TClosed v => if rdropped s then Some (finish s j (ENoRecv j v))                (* 368-370 *)
                     else Some (set_pc s j (TPop v))
      | TPop v =>                                                                      (* 372-382 *)
          match freeq s with
          | x :: q => Some (set_pc (set_freeq s q) j (FWrite x v))
          | [] => Some (finish s j (EFull j v))
          end
      | SDrop1 d v =>                                                                  (* 410-412 *)
          let s1 := set_wq s (remove Nat.eq_dec j (wq s)) in
          Some (set_h s1 j (mkH (SDrop2 d v) LNone (h_slot h) (h_waker h) (h_woken h) (h_seq h)))
      | SDrop2 d v =>                                                                  (* 417-422, 497-502 *)
          let s1 := set_h s j (mkH (h_pc h) (h_link h) None (h_waker h) (h_woken h) (h_seq h)) in
          let s2 := match h_slot h with Some x => return_slot s1 x | None => s1 end in
          match d with
          | DOk x => Some (set_pc s2 j (FWrite x v))
          | DErr => Some (finish s2 j (ENoRecv j v))
          | DCancel => Some (finish s2 j (ECancel j v))
          end
      | FWrite x v =>                                                                  (* 337-341 *)
          let b := match slots s x with Some _ => true | None => false end in
          Some (set_pc (set_slot (set_bug s b) x (Some v)) j (FPush x v))
      | FPush x v =>                                                                   (* 344-353 *)
          let b := N <=? length (readyq s) in
          Some (set_pc (emit (set_readyq (set_bug s b) (readyq s ++ [x])) (ECommit j v)) j (FWake v))
      | FWake v => Some (finish (wake_receiver s) j (ESent j v))                       (* 357, 385 *)
      | HDropWake => Some (set_pc (wake_receiver s) j HGone)                           (* 543-545 *)
      | _ => None
      end
  | LDropS j =>                                                                        (* 529-547 *)
      match h_pc (hs s j) with
      | HIdle =>
          let b := match nsend s with 0 => true | _ => false end in
          let s1 := set_bug (set_nsend s (pred (nsend s))) b in
          Some (set_pc s1 j (if pred (nsend s) =? 0 then HDropWake else HGone))
      | _ => None
      end
  | LTryRecv =>
      match recv s with
      | RIdle => Some (set_recv s (RPop None))
      | _ => None
      end
  | LRecv w =>
      match recv s with
      | RIdle | RSleep _ => Some (set_recv s (RReg w))
      | _ => None
      end
  | LRStep =>
      match recv s with
      | RReg w => Some (set_recv (register_receiver s w) (RPop (Some w)))              (* 625 *)
      | RPop w =>                                                                      (* 593-596 *)
          match readyq s with
          | x :: q => Some (set_recv (set_readyq s q) (RRead w x))
          | [] => Some (set_recv s (RChk w))
          end
      | RRead w x =>                                                                   (* 602 *)
          match slots s x with
          | Some v => Some (set_recv (set_slot s x None) (RRet w x v))
          | None => Some (set_bug s true)
          end
      | RRet w x v => Some (emit (set_recv (return_slot s x) RIdle) (ERecv v))         (* 607-609 *)
      | RChk w =>                                                                      (* 610-614 *)
          match nsend s with
          | 0 => Some (emit (set_recv s RIdle) ENoSender)
          | _ => match w with
                 | None => Some (emit (set_recv s RIdle) EEmpty)
                 | Some w => Some (set_recv s (RSleep w))                              (* 634-638 *)
                 end
          end
      | RDrain =>                                                                      (* 675-684 *)
          match rev (readyq s) with
          | [] => Some (set_recv s RWakeAll)
          | x :: _ => Some (set_recv (set_readyq s (removelast (readyq s))) (RDrop x))
          end
      | RDrop x =>                                                                     (* 685 *)
          match slots s x with
          | Some v => Some (emit (set_recv (set_slot s x None) RDrain) (EDropV v))
          | None => Some (set_bug s true)
          end
      | RWakeAll =>                                                                    (* 688-690 *)
          match wq s with
          | j :: q =>
              let h := hs s j in
              Some (emit (set_h (set_wq s q) j (mkH (h_pc h) LPopped (h_slot h) (h_waker h) true (h_seq h))) (EWakeS j))
          | [] => Some (set_recv s RDead)
          end
      | _ => None
      end
  | LRCancel =>
      match recv s with
      | RSleep _ => Some (set_recv s RIdle)
      | _ => None
      end
  | LDropR =>                                                                          (* 669-673 *)
      match recv s with
      | RIdle =>
          Some (mkC (freeq s) (readyq s) (slots s) (wq s) true (nsend s) (rwaker s) (hs s) RDrain (r_woken s) (bug s) (seqno s) (log s))
      | _ => None
      end
  end.

(** reachable from a channel that has just been created *)
Definition creach (s : chan) : Prop := reach step chan_new s.

(** projections of the trace *)
Fixpoint commits (l : list event) : list (nat * V) :=
  match l with [] => [] | ECommit j v :: r => (j, v) :: commits r | _ :: r => commits r end.
Fixpoint recvs (l : list event) : list V :=
  match l with [] => [] | ERecv v :: r => v :: recvs r | _ :: r => recvs r end.

End Channel.
Arguments event : clear implicits.
Arguments hpc : clear implicits.
Arguments rpc : clear implicits.
Arguments chan : clear implicits.
Arguments hst : clear implicits.
Arguments label : clear implicits.
