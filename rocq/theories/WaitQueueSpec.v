(** Specification of the wait queue, independent of the linked-list code: a FIFO list of
    (link, value) pairs plus the life-cycle state of every link.

    [fifo_step] returns [None] exactly for uses the safety contract forbids (wait_queue.rs line 88:
    "The link must live until it is removed from the queue", and a link is pushed at most once). *)
From Verif Require Import Base WaitQueueModel.

Section Spec.
Context {W : Type}.

Inductive status := Absent | Fresh (v : W) | Queued | Done.

Record fifo := mkFifo { f_q : list (nat * W); f_st : nat -> status }.

Definition fifo_new : fifo := mkFifo [] (fun _ => Absent).

(** the queue without the entries of link [a] *)
Definition without (a : nat) (q : list (nat * W)) : list (nat * W) :=
  filter (fun p => negb (Nat.eqb (fst p) a)) q.

Definition fifo_step (s : fifo) (o : wq_op W) : option (fifo * wq_out W) :=
  match o with
  | ONew a v =>
      match f_st s a with
      | Queued => None                                  (* memory still in use *)
      | _ => Some (mkFifo (f_q s) (upd (f_st s) a (Fresh v)), RUnit)
      end
  | OPush a =>
      match f_st s a with
      | Fresh v => Some (mkFifo (f_q s ++ [(a, v)]) (upd (f_st s) a Queued), RUnit)
      | _ => None
      end
  | OPop =>
      match f_q s with
      | [] => Some (s, RPop None)
      | (a, v) :: q => Some (mkFifo q (upd (f_st s) a Done), RPop (Some v))
      end
  | ORemove a =>
      match f_st s a with
      | Absent => None
      | _ => Some (mkFifo (without a (f_q s)) (upd (f_st s) a Done), RUnit)
      end
  | OIsEmpty => Some (s, RBool (match f_q s with [] => true | _ => false end))
  | OIsPopped a =>
      match f_st s a with
      | Absent => None
      | Done => Some (s, RBool true)
      | _ => Some (s, RBool false)
      end
  | OFree a =>
      match f_st s a with
      | Queued => None
      | _ => Some (mkFifo (f_q s) (upd (f_st s) a Absent), RUnit)
      end
  end.

Fixpoint fifo_run (s : fifo) (ops : list (wq_op W)) : option (fifo * list (wq_out W)) :=
  match ops with
  | [] => Some (s, [])
  | o :: ops' =>
      match fifo_step s o with
      | None => None
      | Some (s1, r) =>
          match fifo_run s1 ops' with
          | None => None
          | Some (s2, rs) => Some (s2, r :: rs)
          end
      end
  end.
End Spec.
Arguments status : clear implicits.
Arguments fifo : clear implicits.
