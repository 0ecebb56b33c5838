(** Model of the data behind resource locks: the machine of LockModel.v with the resource values.
    - rtic/src/export/cortex_basepri.rs 61-79, cortex_source_mask.rs 88-218, riscv_esp32c3.rs 52-77: [lock] turns the
      pointer to the resource into a [&mut T] and hands it to the closure after the masking writes, and the closure
      returns before the unmasking writes;
    - rtic-macros/src/codegen/bindings/cortex.rs 98-120: the generated [Mutex::lock] passes that pointer.
    The reference is unaliased for the whole closure, so the compiler may keep the value in registers: the closure works
    on a private copy, loaded when it starts and stored when it returns; it may also be stored at any time in between
    ([AFlush]).  Simplification: a read or write of a resource is one step and concerns the whole value. *)
From Verif Require Import Base LTS LockModel.
Set Implicit Arguments.

(** What a task does with a resource: its closure starts, it reads or overwrites the value, the closure returns. *)
Inductive act (V : Type) := Enter | Read (v : V) | Write (v : V) | Exit.
Arguments Enter {V}. Arguments Exit {V}.
(** One such event: resource, task, nesting depth of the handler, action. *)
Record event (V : Type) := mkEv { ev_res : nat; ev_task : nat; ev_depth : nat; ev_act : act V }.

Section Access.
Context (B : backend) (A : lapp) (V : Type).

Record amach := mkA {
  a_m : mach B;
  a_mem : nat -> V;                  (* the statics *)
  a_copy : nat -> nat -> V;          (* handler depth, resource: the copy of the closure *)
  a_log : list (event V)
}.

(** The frame is inside the closure of [lock] on [r]. *)
Definition inside (f : frame B) (r : nat) : bool :=
  existsb (fun e => (e_res e =? r) && match e_ph e with PHeld => true | _ => false end) (f_ents f).

Definition upd1 (g : nat -> V) (r : nat) (v : V) : nat -> V := fun x => if x =? r then v else g x.
Definition upd2 (g : nat -> nat -> V) (d r : nat) (v : V) : nat -> nat -> V := fun y => if y =? d then upd1 (g d) r v else g y.

Inductive alabel := AStep (l : mlabel) | ARead (r : nat) | AWrite (r : nat) (v : V) | AFlush (r : nat).

(** The closure of which resource starts (all masking writes done) or returns with this step. *)
Definition starts (s : mach B) (l : mlabel) : option (nat * nat * nat) :=
  match l, m_stack s with
  | LMicro, f :: fs => match f_ents f, f_task f with
                       | e :: _, Some t => match e_ph e with
                                           | PEnter k => match nth_error (enter B (l_ceil A (e_res e))) k with None => Some (e_res e, t, length fs) | Some _ => None end
                                           | _ => None
                                           end
                       | _, _ => None
                       end
  | _, _ => None
  end.
Definition returns (s : mach B) (l : mlabel) : option (nat * nat * nat) :=
  match l, m_stack s with
  | LUnlock, f :: fs => match f_ents f, f_task f with e :: _, Some t => Some (e_res e, t, length fs) | _, _ => None end
  | _, _ => None
  end.
(** The running task may use its reference to [r]: it is inside the closure and in no lock operation of its own. *)
Definition can_use (s : mach B) (r : nat) : option (nat * nat) :=
  match m_stack s with
  | f :: fs => match f_task f with Some t => if calm (f_ents f) && inside f r then Some (t, length fs) else None | None => None end
  | [] => None
  end.

Definition astep (s : amach) (l : alabel) : option amach :=
  match l with
  | AStep l =>
      match mstep A (a_m s) l with
      | None => None
      | Some m' =>
          match starts (a_m s) l, returns (a_m s) l with
          | Some (r, t, d), _ => Some (mkA m' (a_mem s) (upd2 (a_copy s) d r (a_mem s r)) (a_log s ++ [mkEv r t d Enter]))
          | None, Some (r, t, d) => Some (mkA m' (upd1 (a_mem s) r (a_copy s d r)) (a_copy s) (a_log s ++ [mkEv r t d Exit]))
          | None, None => Some (mkA m' (a_mem s) (a_copy s) (a_log s))
          end
      end
  | ARead r => match can_use (a_m s) r with
               | Some (t, d) => Some (mkA (a_m s) (a_mem s) (a_copy s) (a_log s ++ [mkEv r t d (Read (a_copy s d r))]))
               | None => None
               end
  | AWrite r v => match can_use (a_m s) r with
                  | Some (t, d) => Some (mkA (a_m s) (a_mem s) (upd2 (a_copy s) d r v) (a_log s ++ [mkEv r t d (Write v)]))
                  | None => None
                  end
  | AFlush r => match can_use (a_m s) r with
                | Some (t, d) => Some (mkA (a_m s) (upd1 (a_mem s) r (a_copy s d r)) (a_copy s) (a_log s))
                | None => None
                end
  end.

Definition a_init (m0 : bm B) (x0 : bs B) (val : nat -> V) (junk : nat -> nat -> V) : amach := mkA (m_init B m0 x0) val junk [].
End Access.
