(** Model of the storage of a software task's executor: rtic/src/export/executor.rs 30-203 ([ExecFn], [exec_size], [exec_align], [exec_new],
    [ExecutorHolder], [exec_from_holder], [Align]) and the generated static (rtic-macros/src/codegen/util.rs 156-195,
    [executor_decl], [executor_expr]).
    A type is given by its size and alignment.  [repr(C)] is laid out by the algorithm of the Rust reference (type-layout, "The C
    Representation"); for [AsyncTaskExecutor] ([repr(Rust)]) only what the language guarantees is assumed (the record [exec_layout] of PropertiesLayout).
    Compile errors are [None].  Not modelled: linker placement of statics (assumed aligned and disjoint). *)
From Verif Require Import Base.
Set Implicit Arguments.

Record layout := mkLay { sz : nat; al : nat }.

(** the least multiple of [a] that is at least [n] *)
Definition round_up (n a : nat) : nat := if n mod a =? 0 then n else n + (a - n mod a).
(** Rust reference, repr(C) structs: field offsets, end of the last field, largest alignment *)
Fixpoint repr_c_from (off mx : nat) (fs : list layout) : list nat * nat * nat :=
  match fs with
  | [] => ([], off, mx)
  | f :: fs' => let o := round_up off (al f) in
                match repr_c_from (o + sz f) (Nat.max mx (al f)) fs' with (os, e, m) => (o :: os, e, m) end
  end.
Definition repr_c (fs : list layout) : list nat * layout :=
  match repr_c_from 0 1 fs with (os, e, m) => (os, mkLay (round_up e m) m) end.

(** executor.rs 184-200: the alignments for which [Align<N>: Alignment]: 1, 2, 4, ..., 16384 (written as powers) *)
Definition alignments : list nat := [2^0; 2^1; 2^2; 2^3; 2^4; 2^5; 2^6; 2^7; 2^8; 2^9; 2^10; 2^11; 2^12; 2^13; 2^14].
(** executor.rs 160-164: [Align<N>] is transparent over an array of no elements, aligned to [N] *)
Definition align_ty (n : nat) : option layout := if existsb (Nat.eqb n) alignments then Some (mkLay 0 n) else None.
(** executor.rs 116-124: [ExecutorHolder<SIZE, ALIGN>]: an array of SIZE bytes, then [Align<ALIGN>] *)
Definition holder (size align : nat) : option (list nat * layout) :=
  match align_ty align with Some a => Some (repr_c [mkLay size 1; a]) | None => None end.

(** executor.rs 55-78: [ExecFn] is implemented for functions of 0 to 16 parameters; a task has its context and its inputs *)
Definition exec_fn (inputs : nat) : bool := inputs + 1 <=? 16.

(** util.rs 160-178 with executor.rs 82-108: the static of a task whose executor has layout [e]; [transmute] needs equal sizes.
    The result: the layout of the static and the offset of its first field. *)
Definition executor_decl (inputs : nat) (e : layout) : option (layout * nat) :=
  if exec_fn inputs then
    match holder (sz e) (al e) with
    | Some (o :: _, h) => if sz h =? sz e then Some (h, o) else None
    | _ => None
    end
  else None.
(** executor.rs 144-158: [exec_from_holder] on the static at address [base]: const assertions, then the address of [data] *)
Definition exec_from_holder (size align : nat) (e : layout) (base off : nat) : option nat :=
  if (size =? sz e) && (align =? al e) then Some (base + off) else None.
(** util.rs 184-195 *)
Definition executor_expr (inputs : nat) (e : layout) (base : nat) : option nat :=
  match executor_decl inputs e with Some (_, o) => exec_from_holder (sz e) (al e) e base o | None => None end.
(** The bytes of the static: those of the transmuted [exec_new] value ([None]: uninitialised). *)
Definition static_bytes (img : nat -> option nat) (base : nat) (a : nat) : option nat := if base <=? a then img (a - base) else None.
