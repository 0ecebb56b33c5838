(** Specification vocabulary for Signal and Watch, over the log of API-visible events. *)
From Verif Require Import Base LTS WakerRegModel SignalModel.
Set Implicit Arguments.

Section Spec.
Context {V : Type}.
Implicit Types (l : list (@sevent V)) (s : @sig V).

(** [register_history l o]: [l] is a legal history of a one-place mailbox that ends holding [o]: a read that
    returns [v] empties a mailbox holding [v], a read that returns nothing finds it empty, a write replaces
    the content. *)
Inductive register_history : list (@sevent V) -> option V -> Prop :=
| rh_nil : register_history [] None
| rh_write l o i v : register_history l o -> register_history (l ++ [VWrite i v]) (Some v)
| rh_clear l o i : register_history l o -> register_history (l ++ [VClear i]) None
| rh_take l j v : register_history l (Some v) -> register_history (l ++ [VTake j v]) None
| rh_empty l j : register_history l None -> register_history (l ++ [VEmpty j]) None
| rh_evict l o j : register_history l o -> register_history (l ++ [VEvict j]) None
| rh_other l o e : match e with VWrite _ _ | VClear _ | VTake _ _ | VEmpty _ | VEvict _ => False | _ => True end ->
    register_history l o -> register_history (l ++ [e]) o.

(** Values written, oldest first. *)
Fixpoint writes l : list V := match l with [] => [] | VWrite _ v :: r => v :: writes r | _ :: r => writes r end.
(** Which writes (1, 2, ...) have been returned by try_get or changed. *)
Fixpoint returned l : list nat :=
  match l with [] => [] | VGet _ n _ :: r => n :: returned r | VChg _ n _ :: r => n :: returned r | _ :: r => returned r end.

(** Every value returned by [changed] stems from a later write than everything returned before it. *)
Inductive fresh_changes : list (@sevent V) -> Prop :=
| fc_nil : fresh_changes []
| fc_chg l j n v : fresh_changes l -> (forall m, In m (returned l) -> m < n) -> fresh_changes (l ++ [VChg j n v])
| fc_other l e : match e with VChg _ _ _ => False | _ => True end -> fresh_changes l -> fresh_changes (l ++ [e]).

(** A value the reader waits for is there. *)
Definition available (k : kind) s : Prop :=
  match k with KSignal => store s <> None | KWatch => store s <> None /\ seen s = false end.

Definition sreach (k : kind) s : Prop := reach (sstep k) sig_new s.
Definition sgreach (k : kind) (G : sig -> slabel -> Prop) s : Prop := greach (sstep k) G sig_new s.

Definition semits s s' e : Prop := exists es, slog s' = slog s ++ es /\ In e es.
End Spec.
