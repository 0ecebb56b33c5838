(** Model of the shared-bus devices of rtic-sync/src/arbiter/spi.rs and rtic-sync/src/arbiter/i2c.rs on top of the
    arbiter (ArbiterModel.v): any number of SPI devices, I2C devices and direct users of one bus.
    - Device [j] is client [j] of the arbiter; a transaction borrows it mutably, so it runs one at a time.
    - A bus call ([read], [write], ..., [flush]) begins, and ends with the result the bus gives; in between an async
      device is suspended (and its future may be dropped), a blocking one is not.  Which of read / write / transfer /
      transfer_in_place is called on which buffers is the number [n] of [OBus n].
    - A pin operation takes one step; if it fails the level of the pin afterwards is not known.
    - Not modelled: word and error types (errors are numbers), [into_non_blocking] (moves the fields). *)
From Verif Require Import Base LTS ArbiterModel.
Set Implicit Arguments.

(** embedded_hal spi::Operation: a bus operation or DelayNs *)
Inductive op := OBus (n : nat) | ODelay (ns : nat).
Inductive bcall := COp (n : nat) | CFlush.
(** embedded_hal_bus DeviceError (spi.rs 31); for I2C only [BBus] *)
Inductive berr := BBus (e : nat) | BCs (e : nat).

(** What happens on the bus and at the API; [None]: success. *)
Inductive ev :=
| EvGot (ops : list op)           (* the device has the bus, for these operations *)
| EvLow (r : option nat)          (* cs.set_low() *)
| EvCall (c : bcall)              (* a bus call begins *)
| EvDone (r : option nat)         (* it ends *)
| EvDelay (ns : nat)              (* delay_ns begins *)
| EvHigh (r : option nat)         (* cs.set_high() *)
| EvRet (r : option berr)         (* the transaction returns and the guard is dropped *)
| EvCancel                        (* its future is dropped while it has the bus *)
| EvUse                           (* a direct user calls a bus method through its guard *)
| EvEnd.                          (* and drops the guard *)

Inductive dkind := KSpi (blocking : bool) | KI2c (blocking : bool) | KDirect.

Inductive bpc :=
| BIdle
| BAcc                            (* in self.bus.access().await *)
| BLow                            (* SPI: guard obtained, before set_low, spi.rs 46 *)
| BNext (ops : list op)           (* before the next operation, or the final flush if there is none, 49-72 *)
| BRun (ops : list op)            (* in a bus call, 51-54 *)
| BPre (ns : nat) (ops : list op) (* in the flush of DelayNs, 55 *)
| BSleep (ops : list op)          (* in delay_ns, 58 *)
| BFail (e : nat)                 (* an operation failed, before the flush, 63-65 *)
| BFl (r : option nat)            (* in the flush of 72; [r] is op_res *)
| BHi (r f : option nat)          (* before set_high, 73 *)
| BEnd (r : option berr)          (* before returning, 75-79 *)
| BI                              (* I2C: guard obtained, before the bus call *)
| BIRun.                          (* in it *)

Record bus := mkBus {
  b_arb : @arb unit;
  b_pc : nat -> bpc;
  b_cs : nat -> bool;             (* chip select of device j asserted (low) *)
  b_ops : nat -> list op;         (* history: what the transaction in progress was called with *)
  b_log : list (nat * ev)         (* oldest first *)
}.
Definition bus_new : bus := mkBus (arb_new tt) (fun _ => BIdle) (fun _ => false) (fun _ => []) [].

Definition set_arb (s : bus) (a : @arb unit) : bus := mkBus a (b_pc s) (b_cs s) (b_ops s) (b_log s).
Definition set_bpc (s : bus) (j : nat) (p : bpc) : bus := mkBus (b_arb s) (upd (b_pc s) j p) (b_cs s) (b_ops s) (b_log s).
Definition set_cs (s : bus) (j : nat) (l : bool) : bus := mkBus (b_arb s) (b_pc s) (upd (b_cs s) j l) (b_ops s) (b_log s).
Definition set_bops (s : bus) (j : nat) (o : list op) : bus := mkBus (b_arb s) (b_pc s) (b_cs s) (upd (b_ops s) j o) (b_log s).
Definition bemit (s : bus) (j : nat) (e : ev) : bus := mkBus (b_arb s) (b_pc s) (b_cs s) (b_ops s) (b_log s ++ [(j, e)]).

(** spi.rs 75-79: the operation's error first, then that of the flush, then that of the pin *)
Definition first_err (r f c : option nat) : option berr :=
  match r, f, c with
  | Some e, _, _ => Some (BBus e)
  | None, Some e, _ => Some (BBus e)
  | None, None, Some e => Some (BCs e)
  | None, None, None => None
  end.

Inductive blabel :=
| LCall (j : nat) (ops : list op)  (* transaction called and first polled; I2C: read / write / write_read / transaction *)
| LPoll (j w : nat)                (* the access future is polled *)
| LGot (j : nat)                   (* access returns the guard *)
| LLow (j : nat) (r : option nat) (lvl : bool)    (* set_low; level afterwards if it fails *)
| LStart (j : nat)                 (* next bus call *)
| LDone (j : nat) (r : option nat) (* the bus call ends *)
| LSlept (j : nat)                 (* delay_ns ends *)
| LHigh (j : nat) (r : option nat) (lvl : bool)
| LRet (j : nat)                   (* return: the guard is dropped *)
| LDrop (j : nat)                  (* the future is dropped where it is suspended *)
| LDir (l : alabel (V := unit))    (* access / try_access of a direct user *)
| LUse (j : nat)
| LRel (j : nat).                  (* a direct user drops its guard *)

(** the client a direct step of the arbiter belongs to; dropping the guard is [LRel], using it [LUse] *)
Definition dir_client (l : alabel (V := unit)) : option nat :=
  match l with AAccess j | APoll j _ | AFinish j | ACancel j | ATry j => Some j | ARelease _ | ASet _ _ => None end.

(** an I2C device method is one call of the bus *)
Definition call_ok (k : dkind) (ops : list op) : bool :=
  match k with KSpi _ => true | KI2c _ => match ops with [OBus _] => true | _ => false end | KDirect => false end.

Section Bus.
Context (kind : nat -> dkind).

(** the transaction is suspended inside an await while having the bus *)
Definition suspended (k : dkind) (p : bpc) : bool :=
  match p with
  | BSleep _ => true
  | BRun _ | BPre _ _ | BFl _ | BIRun => match k with KSpi b | KI2c b => negb b | KDirect => false end
  | _ => false
  end.

(** spi.rs 41-81 / 121-161 and i2c.rs 74-105 / 139-168 *)
Definition bstep (s : bus) (l : blabel) : option bus :=
  match l with
  | LCall j ops =>
      match b_pc s j with
      | BIdle => if call_ok (kind j) ops
                 then match astep (b_arb s) (AAccess j) with
                      | Some a => Some (set_bops (set_bpc (set_arb s a) j BAcc) j ops)
                      | None => None
                      end
                 else None
      | _ => None
      end
  | LPoll j w => match b_pc s j with
                 | BAcc => match astep (b_arb s) (APoll j w) with Some a => Some (set_arb s a) | None => None end
                 | _ => None
                 end
  | LGot j => match b_pc s j with
              | BAcc => match astep (b_arb s) (AFinish j) with
                        | Some a => Some (bemit (set_bpc (set_arb s a) j (match kind j with KSpi _ => BLow | _ => BI end)) j (EvGot (b_ops s j)))
                        | None => None
                        end
              | _ => None
              end
  | LLow j r lvl =>                                                                  (* 46 *)
      match b_pc s j with
      | BLow => Some (bemit (set_cs (set_bpc s j (match r with None => BNext (b_ops s j) | Some e => BEnd (Some (BCs e)) end))
                                    j (match r with None => true | Some _ => lvl end)) j (EvLow r))
      | _ => None
      end
  | LStart j =>
      match b_pc s j with
      | BNext [] => Some (bemit (set_bpc s j (BFl None)) j (EvCall CFlush))          (* 67, 72 *)
      | BNext (OBus n :: ops) => Some (bemit (set_bpc s j (BRun ops)) j (EvCall (COp n)))        (* 51-54 *)
      | BNext (ODelay ns :: ops) => Some (bemit (set_bpc s j (BPre ns ops)) j (EvCall CFlush))   (* 55 *)
      | BFail e => Some (bemit (set_bpc s j (BFl (Some e))) j (EvCall CFlush))       (* 72 *)
      | BI => match b_ops s j with
              | [OBus n] => Some (bemit (set_bpc s j BIRun) j (EvCall (COp n)))
              | _ => None
              end
      | _ => None
      end
  | LDone j r =>
      match b_pc s j with
      | BRun ops => Some (bemit (set_bpc s j (match r with None => BNext ops | Some e => BFail e end)) j (EvDone r))   (* 63-65 *)
      | BPre ns ops => match r with
                       | None => Some (bemit (bemit (set_bpc s j (BSleep ops)) j (EvDone r)) j (EvDelay ns))           (* 57-58 *)
                       | Some e => Some (bemit (set_bpc s j (BFail e)) j (EvDone r))                                   (* 56 *)
                       end
      | BFl res => Some (bemit (set_bpc s j (BHi res r)) j (EvDone r))
      | BIRun => Some (bemit (set_bpc s j (BEnd (match r with None => None | Some e => Some (BBus e) end))) j (EvDone r))
      | _ => None
      end
  | LSlept j => match b_pc s j with BSleep ops => Some (set_bpc s j (BNext ops)) | _ => None end
  | LHigh j r lvl =>                                                                 (* 73 *)
      match b_pc s j with
      | BHi res f => Some (bemit (set_cs (set_bpc s j (BEnd (first_err res f r))) j (match r with None => false | Some _ => lvl end)) j (EvHigh r))
      | _ => None
      end
  | LRet j =>
      match b_pc s j with
      | BEnd r => match astep (b_arb s) (ARelease j) with
                  | Some a => Some (bemit (set_bpc (set_arb s a) j BIdle) j (EvRet r))
                  | None => None
                  end
      | _ => None
      end
  | LDrop j =>
      match b_pc s j with
      | BAcc => match astep (b_arb s) (ACancel j) with Some a => Some (set_bpc (set_arb s a) j BIdle) | None => None end
      | p => if suspended (kind j) p
             then match astep (b_arb s) (ARelease j) with
                  | Some a => Some (bemit (set_bpc (set_arb s a) j BIdle) j EvCancel)
                  | None => None
                  end
             else None
      end
  | LDir l => match dir_client l with
              | Some j => match kind j with
                          | KDirect => match astep (b_arb s) l with Some a => Some (set_arb s a) | None => None end
                          | _ => None
                          end
              | None => None
              end
  | LUse j => match kind j, a_pc (cl (b_arb s) j) with KDirect, AHold => Some (bemit s j EvUse) | _, _ => None end
  | LRel j => match kind j with
              | KDirect => match astep (b_arb s) (ARelease j) with Some a => Some (bemit (set_arb s a) j EvEnd) | None => None end
              | _ => None
              end
  end.
End Bus.
