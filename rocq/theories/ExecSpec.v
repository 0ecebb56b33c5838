(** Specification vocabulary for the executor, over the log of API-visible events. *)
From Verif Require Import Base LTS ExecModel.
Set Implicit Arguments.

Section Spec.
Context {V : Type}.
Implicit Types (l : list (@xevent V)) (s : @ex V).

(** [lives t l o]: in log [l] the instances of task [t] follow one another: an instance is accepted only when
    none is alive, only the living instance is polled, only it ends; [o] is the instance alive at the end. *)
Inductive lives (t : nat) : list (@xevent V) -> option (nat * V) -> Prop :=
| lv_nil : lives t [] None
| lv_alloc l id v : lives t l None -> lives t (l ++ [XAlloc t id v]) (Some (id, v))
| lv_err l c v id x : lives t l (Some (id, x)) -> lives t (l ++ [XErr c t v]) (Some (id, x))
| lv_poll l id v : lives t l (Some (id, v)) -> lives t (l ++ [XPoll t id v]) (Some (id, v))
| lv_end l id v : lives t l (Some (id, v)) -> lives t (l ++ [XEnd t id]) None
| lv_other l o e : match e with
                   | XAlloc t' _ _ | XErr _ t' _ | XPoll t' _ _ | XEnd t' _ => t' <> t
                   | _ => True
                   end -> lives t l o -> lives t (l ++ [e]) o.

Definition xemits s s' e : Prop := exists es, elog s' = elog s ++ es /\ In e es.

(** The tasks the dispatcher's current pass has still to look at. *)
Definition ahead (d : dpc) : list nat :=
  match d with DIdle => [] | DEnter ts | DAt ts => ts | DChk t ts => t :: ts | DIn _ ts | DFin _ ts => ts end.

(** Context [c] is in the middle of a spawn or wake of [t]. *)
Definition busy_with s c t : Prop :=
  match ctx s c with CIdle => False | CWrite t' _ _ | CSet t' _ _ | CPend t' _ => t' = t end.
(** Context [c] has reserved the executor of [t] and not yet stored the new future. *)
Definition in_window s c t : Prop := exists id v, ctx s c = CWrite t id v.

Definition xreach zero tasks s : Prop := reach (xstep zero tasks) ex_new s.
End Spec.
