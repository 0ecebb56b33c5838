(** What a transaction does on the bus, from first to last event, whatever the bus and the pin answer. *)
From Verif Require Import Base LTS ArbiterModel BusModel.
Set Implicit Arguments.

(** [ops_trace ops l r]: executing [ops] in order up to the first failure does [l]; [r] is that failure. *)
Inductive ops_trace : list op -> list ev -> option nat -> Prop :=
| ot_nil : ops_trace [] [] None
| ot_ok n ops l r : ops_trace ops l r -> ops_trace (OBus n :: ops) (EvCall (COp n) :: EvDone None :: l) r
| ot_err n ops e : ops_trace (OBus n :: ops) [EvCall (COp n); EvDone (Some e)] (Some e)
| ot_delay ns ops l r : ops_trace ops l r -> ops_trace (ODelay ns :: ops) (EvCall CFlush :: EvDone None :: EvDelay ns :: l) r
| ot_delay_err ns ops e : ops_trace (ODelay ns :: ops) [EvCall CFlush; EvDone (Some e)] (Some e).

(** What a transaction returns, from the results of operations, flush and raising chip select: the first error. *)
Inductive outcome : option nat -> option nat -> option nat -> option berr -> Prop :=
| oc_ok : outcome None None None None
| oc_op e f c : outcome (Some e) f c (Some (BBus e))
| oc_flush e c : outcome None (Some e) c (Some (BBus e))
| oc_pin e : outcome None None (Some e) (Some (BCs e)).
(** A whole SPI transaction: chip select low, the operations, and then, even if one failed, flush and chip select
    high; the result is the first of operation error, flush error, pin error. *)
Inductive spi_trace (ops : list op) : list ev -> Prop :=
| st_full l r f c res : ops_trace ops l r -> outcome r f c res ->
    spi_trace ops ([EvLow None] ++ l ++ [EvCall CFlush; EvDone f; EvHigh c; EvRet res])
| st_low e : spi_trace ops [EvLow (Some e); EvRet (Some (BCs e))].
(** A whole I2C operation: one call of the bus, its result returned. *)
Inductive i2c_trace : list op -> list ev -> Prop :=
| it_full n r : i2c_trace [OBus n] [EvCall (COp n); EvDone r; EvRet (match r with None => None | Some e => Some (BBus e) end)].

(** One visit to the bus. *)
Inductive visit_ok (k : dkind) (ops : list op) : list ev -> Prop :=
| vi_spi b l : k = KSpi b -> spi_trace ops l -> visit_ok k ops (EvGot ops :: l)
| vi_i2c b l : k = KI2c b -> i2c_trace ops l -> visit_ok k ops (EvGot ops :: l)
| vi_dir n : k = KDirect -> visit_ok k ops (repeat EvUse n ++ [EvEnd]).
(** A visit that is not finished, or whose future was dropped: the beginning of a whole one. *)
Definition visit_prefix (k : dkind) (ops : list op) (l : list ev) : Prop := exists rest, rest <> [] /\ visit_ok k ops (l ++ rest).
Definition visit (k : dkind) (ops : list op) (l : list ev) : Prop :=
  visit_ok k ops l \/ exists l', l = l' ++ [EvCancel] /\ visit_prefix k ops l'.

(** The log is a sequence of visits one after the other, the last perhaps unfinished: (device, operations, events). *)
Definition flat (v : nat * list op * list ev) : list (nat * ev) := map (pair (fst (fst v))) (snd v).
Definition serial (kind : nat -> dkind) (log : list (nat * ev)) : Prop :=
  exists vs j ops l, log = flat_map flat vs ++ map (pair j) l /\
    (forall v, In v vs -> visit (kind (fst (fst v))) (snd (fst v)) (snd v)) /\ (l = [] \/ visit_prefix (kind j) ops l).

(** What the devices were asked to do, read off the schedule: each time [access] returns to device [j], the operations
    of its latest call. *)
Fixpoint wanted (cur : nat -> list op) (sched : list blabel) : list (nat * list op) :=
  match sched with
  | [] => []
  | LCall j ops :: t => wanted (upd cur j ops) t
  | LGot j :: t => (j, cur j) :: wanted cur t
  | _ :: t => wanted cur t
  end.
(** What the log says they did. *)
Fixpoint gots (log : list (nat * ev)) : list (nat * list op) :=
  match log with
  | [] => []
  | (j, EvGot ops) :: t => (j, ops) :: gots t
  | _ :: t => gots t
  end.

Section Spec.
Context (kind : nat -> dkind).
Definition breach (s : bus) : Prop := reach (bstep kind) bus_new s.
(** Device [j] has the bus. *)
Definition on_bus (s : bus) (j : nat) : Prop := a_pc (cl (b_arb s) j) = AHold.
(** Schedules in which no future is dropped while it has the bus and no chip select pin fails. *)
Definition gentle (s : bus) (l : blabel) : Prop :=
  match l with
  | LDrop j => b_pc s j = BAcc
  | LLow _ r _ | LHigh _ r _ => r = None
  | _ => True
  end.
Definition gentle_reach (s : bus) : Prop := greach (bstep kind) gentle bus_new s.
End Spec.
