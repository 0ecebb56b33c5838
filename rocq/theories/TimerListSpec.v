(** Specification of the timer list: a plain list of (link, value), kept ordered by inserting a new
    entry just before the first entry that is strictly later. *)
From Verif Require Import Base TimerListModel.
From Coq Require Import Sorting.Sorted.
Set Implicit Arguments.

Section Spec.
Context {V : Type} (lt : V -> V -> bool).

Inductive tstatus := TAbsent | TFresh (v : V) | TQueued | TDone.

Record slist := mkSList { s_q : list (nat * V); s_st : nat -> tstatus }.
Definition slist_new : slist := mkSList [] (fun _ => TAbsent).

Fixpoint ins (a : nat) (v : V) (q : list (nat * V)) : list (nat * V) :=
  match q with
  | [] => [(a, v)]
  | (b, w) :: q' => if lt v w then (a, v) :: q else (b, w) :: ins a v q'
  end.

Definition drop_addr (a : nat) (q : list (nat * V)) : list (nat * V) :=
  filter (fun p => negb (Nat.eqb (fst p) a)) q.

Definition slist_step (s : slist) (o : tl_op V) : option (slist * tl_out V) :=
  match o with
  | TNew a v =>
      match s_st s a with
      | TQueued => None
      | _ => Some (mkSList (s_q s) (upd (s_st s) a (TFresh v)), TUnit)
      end
  | TInsert a =>
      match s_st s a with
      | TFresh v =>
          let q := ins a v (s_q s) in
          Some (mkSList q (upd (s_st s) a TQueued),
                THead (match q with (b, _) :: _ => Nat.eqb b a | [] => false end))
      | _ => None
      end
  | TDelete a =>
      Some (mkSList (drop_addr a (s_q s))
              (match s_st s a with TQueued => upd (s_st s) a TDone | _ => s_st s end), TUnit)
  | TPopIf p =>
      match s_q s with
      | (a, v) :: q => if p v then Some (mkSList q (upd (s_st s) a TDone), TPopped (Some v))
                       else Some (s, TPopped None)
      | [] => Some (s, TPopped None)
      end
  | TFree a =>
      match s_st s a with
      | TQueued => None
      | _ => Some (mkSList (s_q s) (upd (s_st s) a TAbsent), TUnit)
      end
  end.

Fixpoint slist_run (s : slist) (ops : list (tl_op V)) : option (slist * list (tl_out V)) :=
  match ops with
  | [] => Some (s, [])
  | o :: ops' =>
      match slist_step s o with
      | None => None
      | Some (s1, r) =>
          match slist_run s1 ops' with
          | None => None
          | Some (s2, rs) => Some (s2, r :: rs)
          end
      end
  end.

(** "No later entry is strictly before an earlier one". *)
Definition ordered (q : list (nat * V)) : Prop :=
  ForallOrdPairs (fun x y => lt (snd y) (snd x) = false) q.

(** A strict weak order on the values satisfying [P] (for wrapping ticks: those in a half-range window). *)
Definition weak_order_on (P : V -> Prop) : Prop :=
  (forall x y, P x -> P y -> lt x y = true -> lt y x = false) /\
  (forall x y z, P x -> P y -> P z -> lt y x = false -> lt z y = false -> lt z x = false).
End Spec.
Arguments tstatus : clear implicits.
Arguments slist : clear implicits.
