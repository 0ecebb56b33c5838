(** Model of rtic-time/src/timer_queue/tick_type.rs (u32 and u64 ticks) and of the deadline
    computation in rtic-time/src/timer_queue.rs.  [w] is the bit width (32 or 64 in the code; the
    theorems hold for every [w >= 1]). Values are [Z] in [0, 2^w). *)
From Coq Require Import ZArith.
Open Scope Z_scope.

(** uN::wrapping_sub / wrapping_add *)
Definition wsub (w a b : Z) : Z := (a - b) mod 2 ^ w.
Definition wadd (w a b : Z) : Z := (a + b) mod 2 ^ w.

(** [x as iN] for [x] in [0,2^w). *)
Definition as_signed (w x : Z) : Z := if x <? 2 ^ (w - 1) then x else x - 2 ^ w.

(** tick_type.rs lines 33-35 / 43-45, [compare]. *)
Definition compare (w a b : Z) : comparison := as_signed w (wsub w a b) ?= 0.

(** tick_type.rs lines 18-24, [is_at_least]. *)
Definition is_at_least (w a b : Z) : bool :=
  match compare w a b with Lt => false | Eq => true | Gt => true end.

(** [PartialOrd::lt] of WaitingWaker, timer_queue.rs lines 39-43 ([partial_cmp] = Some Less). *)
Definition tick_lt (w a b : Z) : bool :=
  match compare w a b with Lt => true | _ => false end.

(** timer_queue.rs lines 179-183 ([delay]) and 165-169 ([timeout_after]): the deadline. *)
Definition delay_deadline (w now d : Z) : Z :=
  let timeout := wadd w now d in
  if now =? timeout then timeout else wadd w timeout 1.

(** timer_queue.rs line 221: the test made by [Delay::poll] at clock value [now]. *)
Definition delay_ready (w now deadline : Z) : bool := is_at_least w now deadline.
