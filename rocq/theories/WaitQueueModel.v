(** Model of rtic-common/src/wait_queue.rs: the intrusive doubly linked FIFO list.

    Pointers are [option nat] ([None] is the null pointer); memory is a partial map from addresses to
    links.  A dereference of an address holding no link is undefined behaviour and makes the operation
    return [None] (outer option), so "no UB" is visible in the theorems.

    Every operation of the Rust code is one [critical_section::with] block (lines 48, 90, 148), hence
    atomic; the [SeqCst] fences and [Relaxed] orderings inside are not modelled (single core). *)
From Verif Require Import Base.

Section WaitQueue.
Context {W : Type}.   (* T : Clone, in practice core::task::Waker; cloning is value copying *)

(** wait_queue.rs lines 118-125, [struct Link]. *)
Record link := mkLink {
  l_val : W;
  l_next : option nat;
  l_prev : option nat;
  l_popped : bool
}.

(** wait_queue.rs lines 22-25, [struct DoublyLinkedList], together with the memory of all links. *)
Record wq := mkWq {
  q_head : option nat;
  q_tail : option nat;
  q_mem : nat -> option link
}.

(** lines 29-34, [DoublyLinkedList::new]; no link exists yet. *)
Definition wq_new : wq := mkWq None None (fun _ => None).

(** AtomicPtr/AtomicBool stores through a reference. [None] = store through a dangling pointer. *)
Definition set_next (m : nat -> option link) (a : nat) (p : option nat) : option (nat -> option link) :=
  match m a with
  | Some n => Some (upd m a (Some (mkLink (l_val n) p (l_prev n) (l_popped n))))
  | None => None
  end.
Definition set_prev (m : nat -> option link) (a : nat) (p : option nat) : option (nat -> option link) :=
  match m a with
  | Some n => Some (upd m a (Some (mkLink (l_val n) (l_next n) p (l_popped n))))
  | None => None
  end.
Definition set_popped (m : nat -> option link) (a : nat) (b : bool) : option (nat -> option link) :=
  match m a with
  | Some n => Some (upd m a (Some (mkLink (l_val n) (l_next n) (l_prev n) b)))
  | None => None
  end.

(** [ptr.as_ref()] followed by a store if non-null. *)
Definition set_prev_opt (m : nat -> option link) (p : option nat) (v : option nat) :=
  match p with None => Some m | Some a => set_prev m a v end.

Notation "'do' x <- e ; f" := (match e with Some x => f | None => None end)
  (at level 200, x pattern, e at level 100, f at level 200).

(** lines 131-139, [Link::new], placed at address [a] (the pinned place of the caller). *)
Definition link_new (s : wq) (a : nat) (v : W) : wq :=
  mkWq (q_head s) (q_tail s) (upd (q_mem s) a (Some (mkLink v None None false))).

(** Dropping the place holding the link (end of the caller's stack frame / [Option::take]). *)
Definition link_free (s : wq) (a : nat) : wq :=
  mkWq (q_head s) (q_tail s) (upd (q_mem s) a None).

(** lines 47-82, [pop]. *)
Definition wq_pop (s : wq) : option (option W * wq) :=
  match q_head s with                                                     (* 52, 55 *)
  | None => Some (None, s)                                                (* 80 *)
  | Some h =>
      do hn <- q_mem s h;
      let head' := l_next hn in                                           (* 57 *)
      let v := l_val hn in                                                (* 60 *)
      let tail' := match q_tail s with                                    (* 62-66 *)
                   | Some t => if Nat.eqb h t then None else Some t
                   | None => None end in
      do m1 <- set_prev_opt (q_mem s) (l_next hn) None;                   (* 68-70 *)
      do m2 <- set_next m1 h None;                                        (* 73 *)
      do m3 <- set_prev m2 h None;                                        (* 74 *)
      do m4 <- set_popped m3 h true;                                      (* 75 *)
      Some (Some v, mkWq head' tail' m4)                                  (* 77 *)
  end.

(** lines 89-110, [push]. *)
Definition wq_push (s : wq) (a : nat) : option wq :=
  match q_tail s with                                                     (* 94, 99 *)
  | Some t =>
      do m1 <- set_prev (q_mem s) a (Some t);                             (* 101 *)
      do m2 <- set_next m1 t (Some a);                                    (* 103 *)
      Some (mkWq (q_head s) (Some a) m2)                                  (* 102 *)
  | None =>
      do _ <- q_mem s a;
      Some (mkWq (Some a) (Some a) (q_mem s))                             (* 106-107 *)
  end.

(** lines 113-115, [is_empty]. *)
Definition wq_is_empty (s : wq) : bool :=
  match q_head s with None => true | Some _ => false end.

(** lines 142-144, [Link::is_popped]. *)
Definition link_is_popped (s : wq) (a : nat) : option bool :=
  do n <- q_mem s a; Some (l_popped n).

(** lines 147-189, [Link::remove_from_list]. *)
Definition wq_remove (s : wq) (a : nat) : option wq :=
  do n <- q_mem s a;
  if l_popped n then Some s                                               (* 152-154 *)
  else
    do m0 <- set_popped (q_mem s) a true;                                 (* 158 *)
    match l_prev n, l_next n with                                         (* 156-157, 160 *)
    | None, None =>                                                       (* 161-169 *)
        match q_head s with
        | Some h => if Nat.eqb a h then Some (mkWq None None m0)
                    else Some (mkWq (q_head s) (q_tail s) m0)
        | None => Some (mkWq (q_head s) (q_tail s) m0)
        end
    | None, Some nx =>                                                    (* 170-174 *)
        do m1 <- set_prev m0 nx None;
        Some (mkWq (Some nx) (q_tail s) m1)
    | Some pv, None =>                                                    (* 175-179 *)
        do m1 <- set_next m0 pv None;
        Some (mkWq (q_head s) (Some pv) m1)
    | Some pv, Some nx =>                                                 (* 180-186 *)
        do m1 <- set_next m0 pv (Some nx);
        do m2 <- set_prev m1 nx (Some pv);
        Some (mkWq (q_head s) (q_tail s) m2)
    end.

(** The API as operations with observable results. *)
Inductive wq_op :=
| ONew (a : nat) (v : W)      (* create a link at address a *)
| OPush (a : nat)
| OPop
| ORemove (a : nat)
| OIsEmpty
| OIsPopped (a : nat)
| OFree (a : nat).            (* the memory of the link goes away *)

Inductive wq_out :=
| RUnit
| RPop (v : option W)
| RBool (b : bool).

Definition wq_step (s : wq) (o : wq_op) : option (wq * wq_out) :=
  match o with
  | ONew a v => Some (link_new s a v, RUnit)
  | OPush a => do s' <- wq_push s a; Some (s', RUnit)
  | OPop => do (r, s') <- wq_pop s; Some (s', RPop r)
  | ORemove a => do s' <- wq_remove s a; Some (s', RUnit)
  | OIsEmpty => Some (s, RBool (wq_is_empty s))
  | OIsPopped a => do b <- link_is_popped s a; Some (s, RBool b)
  | OFree a => Some (link_free s a, RUnit)
  end.

Fixpoint wq_run (s : wq) (ops : list wq_op) : option (wq * list wq_out) :=
  match ops with
  | [] => Some (s, [])
  | o :: ops' =>
      do (s1, r) <- wq_step s o;
      do (s2, rs) <- wq_run s1 ops';
      Some (s2, r :: rs)
  end.

End WaitQueue.
Arguments link : clear implicits.
Arguments wq : clear implicits.
Arguments wq_op : clear implicits.
Arguments wq_out : clear implicits.
