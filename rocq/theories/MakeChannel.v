(** Model of one use of the [make_channel!] macro (rtic-sync/src/channel.rs lines 190-213) and of the channel
    behind it.  The code around that use may run any number of times and in any tasks: each execution is a
    "call", numbered.  One step per critical section; [split] runs outside it.
    Simplification: the two loads and stores of CHECK are one step since they share a critical section. *)
From Verif Require Import Base LTS WakerRegModel ChannelModel.
Set Implicit Arguments.

Section Make.
Context {V : Type} (N : nat).

Inductive mpc :=
| MOut               (* not executed yet *)
| MIn                (* left the critical section of lines 198-204, before [split] (line 210) *)
| MGot               (* returned the Sender and the Receiver *)
| MPanic.            (* panicked at line 200 *)

Record msite := mkM {
  m_check : nat;               (* CHECK, line 196 *)
  m_pc : nat -> mpc;
  m_ch : chan V                (* CHANNEL, lines 193-194 *)
}.
Definition m0 : msite := mkM 0 (fun _ => MOut) chan_new.

Inductive mlabel :=
| MCheck (i : nat)             (* lines 198-204 *)
| MSplit (i : nat)             (* line 210 *)
| MUse (l : label V).          (* a step of the channel itself, by whoever has its ends *)

Definition mstep (s : msite) (l : mlabel) : option msite :=
  match l with
  | MCheck i =>
      match m_pc s i with
      | MOut => if negb (m_check s =? 0) then Some (mkM (m_check s) (upd (m_pc s) i MPanic) (m_ch s))   (* 199-201 *)
                else Some (mkM 1 (upd (m_pc s) i MIn) (m_ch s))                                         (* 203 *)
      | _ => None
      end
  | MSplit i =>
      match m_pc s i with
      | MIn => Some (mkM (m_check s) (upd (m_pc s) i MGot) (do_split N (m_ch s)))                       (* 210 *)
      | _ => None
      end
  | MUse LSplit => None        (* CHANNEL is hidden in the macro's block: only line 210 splits it *)
  | MUse l => match step N (m_ch s) l with Some c => Some (mkM (m_check s) (m_pc s) c) | None => None end
  end.

Definition mkreach (s : msite) : Prop := reach mstep m0 s.
End Make.
Arguments msite : clear implicits.
Arguments mlabel : clear implicits.
