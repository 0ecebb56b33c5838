(** Model of rtic-time/src/linked_list.rs: the intrusive sorted singly linked list of the timer queue.

    Pointers are [option nat]; dereferencing an address without a link is an explicit error ([None]).
    [lt] is the [PartialOrd::lt] of the element type (for the timer queue: timer_queue.rs 31-43).
    Each method is one critical section (lines 26, 51, 101), hence atomic.  The two [while let] loops
    recurse on explicit fuel; running out of fuel is an error, excluded by the theorems. *)
From Verif Require Import Base.
Set Implicit Arguments.

Section TimerList.
Context {V : Type} (lt : V -> V -> bool).

(** lines 169-173, [struct Link]. *)
Record tlink := mkTLink { tl_val : V; tl_next : option nat }.

(** lines 10-12, [struct LinkedList], with the memory of all links. *)
Record tlist := mkTList { t_head : option nat; t_mem : nat -> option tlink }.

(** lines 16-20, [new]. *)
Definition tl_new : tlist := mkTList None (fun _ => None).

(** lines 177-183, [Link::new], placed at address [a]. *)
Definition tlink_new (s : tlist) (a : nat) (v : V) : tlist :=
  mkTList (t_head s) (upd (t_mem s) a (Some (mkTLink v None))).

(** the link's memory goes away (future dropped) *)
Definition tlink_free (s : tlist) (a : nat) : tlist :=
  mkTList (t_head s) (upd (t_mem s) a None).

Definition t_set_next (m : nat -> option tlink) (a : nat) (p : option nat) : option (nat -> option tlink) :=
  match m a with
  | Some n => Some (upd m a (Some (mkTLink (tl_val n) p)))
  | None => None
  end.

(** lines 25-47, [pop_if]. *)
Definition tl_pop_if (s : tlist) (p : V -> bool) : option (tlist * option V) :=
  match t_head s with
  | None => Some (s, None)
  | Some h =>
      match t_mem s h with
      | None => None
      | Some n => if p (tl_val n)                                  (* 34 *)
                  then Some (mkTList (tl_next n) (t_mem s), Some (tl_val n))   (* 36-42 *)
                  else Some (s, None)
      end
  end.

(** lines 78-91: the search loop of [delete]; [curr] is a valid link, [next] its successor. *)
Fixpoint delete_loop (fuel : nat) (m : nat -> option tlink) (curr : nat) (next : option nat) (addr : nat)
  : option (nat -> option tlink) :=
  match next with
  | None => Some m
  | Some nx =>
      match fuel with
      | 0 => None
      | S fuel' =>
          match m nx with
          | None => None
          | Some nl =>
              if Nat.eqb nx addr then t_set_next m curr (tl_next nl)     (* 81-85 *)
              else delete_loop fuel' m nx (tl_next nl) addr              (* 89-90 *)
          end
      end
  end.

(** lines 50-93, [delete]. *)
Definition tl_delete (fuel : nat) (s : tlist) (addr : nat) : option tlist :=
  match t_head s with
  | None => Some s                                                        (* 62 *)
  | Some h =>
      match t_mem s h with
      | None => None
      | Some n =>
          if Nat.eqb h addr then Some (mkTList (tl_next n) (t_mem s))     (* 65-71 *)
          else match delete_loop fuel (t_mem s) h (tl_next n) addr with
               | None => None
               | Some m => Some (mkTList (t_head s) m)
               end
      end
  end.

(** lines 140-161: the search loop of [insert] and the final append. *)
Fixpoint insert_loop (fuel : nat) (m : nat -> option tlink) (curr : nat) (next : option nat) (a : nat) (v : V)
  : option (nat -> option tlink) :=
  match next with
  | None => t_set_next m curr (Some a)                                    (* 160 *)
  | Some nx =>
      match fuel with
      | 0 => None
      | S fuel' =>
          match m nx with
          | None => None
          | Some nl =>
              if lt v (tl_val nl)                                         (* 143 *)
              then match t_set_next m a (Some nx) with                    (* 145 *)
                   | None => None
                   | Some m1 => t_set_next m1 curr (Some a)               (* 148 *)
                   end
              else insert_loop fuel' m nx (tl_next nl) a v                (* 155-156 *)
          end
      end
  end.

(** lines 100-165, [insert]; the result is the [bool] "head updated" (the address is [a] itself). *)
Definition tl_insert (fuel : nat) (s : tlist) (a : nat) : option (tlist * bool) :=
  match t_mem s a with
  | None => None
  | Some me =>
      match t_head s with
      | None => Some (mkTList (Some a) (t_mem s), true)                   (* 118-120 *)
      | Some h =>
          match t_mem s h with
          | None => None
          | Some hn =>
              if lt (tl_val me) (tl_val hn)                               (* 124 *)
              then match t_set_next (t_mem s) a (Some h) with             (* 126 *)
                   | None => None
                   | Some m => Some (mkTList (Some a) m, true)            (* 129-132 *)
                   end
              else match insert_loop fuel (t_mem s) h (tl_next hn) a (tl_val me) with
                   | None => None
                   | Some m => Some (mkTList (t_head s) m, false)
                   end
          end
      end
  end.

Inductive tl_op :=
| TNew (a : nat) (v : V)
| TInsert (a : nat)
| TDelete (a : nat)
| TPopIf (p : V -> bool)
| TFree (a : nat).

Inductive tl_out := TUnit | THead (updated : bool) | TPopped (v : option V).

Definition tl_step (fuel : nat) (s : tlist) (o : tl_op) : option (tlist * tl_out) :=
  match o with
  | TNew a v => Some (tlink_new s a v, TUnit)
  | TInsert a => match tl_insert fuel s a with Some (s', b) => Some (s', THead b) | None => None end
  | TDelete a => match tl_delete fuel s a with Some s' => Some (s', TUnit) | None => None end
  | TPopIf p => match tl_pop_if s p with Some (s', r) => Some (s', TPopped r) | None => None end
  | TFree a => Some (tlink_free s a, TUnit)
  end.

Fixpoint tl_run (fuel : nat) (s : tlist) (ops : list tl_op) : option (tlist * list tl_out) :=
  match ops with
  | [] => Some (s, [])
  | o :: ops' =>
      match tl_step fuel s o with
      | None => None
      | Some (s1, r) =>
          match tl_run fuel s1 ops' with
          | None => None
          | Some (s2, rs) => Some (s2, r :: rs)
          end
      end
  end.
End TimerList.
Arguments tlink : clear implicits.
Arguments tlist : clear implicits.
Arguments tl_op : clear implicits.
Arguments tl_out : clear implicits.
