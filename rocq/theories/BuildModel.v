(** The build scripts and the feature tables: which backend the library and the macro are compiled for. *)
From Coq Require Import List String Ascii Bool.
Import ListNotations.
Open Scope string_scope.
Open Scope list_scope.

(** ** String functions of the Rust standard library the scripts use (ASCII only: feature names are) *)

(** [str::strip_prefix] *)
Fixpoint strip_prefix (p s : string) : option string :=
  match p, s with
  | EmptyString, _ => Some s
  | String a p', String b s' => if Ascii.eqb a b then strip_prefix p' s' else None
  | _, EmptyString => None
  end.

(** [str::ends_with] *)
Fixpoint ends_with (suf s : string) : bool :=
  if String.eqb s suf then true else match s with EmptyString => false | String _ r => ends_with suf r end.

(** [char::to_lowercase], ASCII part *)
Definition lower (c : ascii) : ascii :=
  let n := nat_of_ascii c in if andb (Nat.leb 65 n) (Nat.leb n 90) then ascii_of_nat (n + 32) else c.

Fixpoint smap (f : ascii -> ascii) (s : string) : string :=
  match s with EmptyString => EmptyString | String c r => String (f c) (smap f r) end.

(** [.to_lowercase().replace("_", "-")] *)
Definition norm (s : string) : string :=
  smap (fun c => if Ascii.eqb c "_"%char then "-"%char else c) (smap lower s).

Fixpoint filter_map {A B} (f : A -> option B) (l : list A) : list B :=
  match l with [] => [] | x :: r => match f x with Some y => y :: filter_map f r | None => filter_map f r end end.

(** ** rtic/build.rs *)

(** The names of the environment variables; their values are not looked at (rtic/build.rs:4, [(k, _)]). *)
Definition env := list string.

(** rtic/build.rs:3-10 [backends] *)
Definition backends (e : env) : list string :=
  filter_map (fun k => match strip_prefix "CARGO_FEATURE_" k with
                       | Some f => if ends_with "BACKEND" f then Some (norm f) else None
                       | None => None end) e.

(** rtic/build.rs:26-35 [impls] *)
Definition impls : list (string * string) :=
  [ ("thumbv6-backend", "cortex-m-source-masking");
    ("thumbv8base-backend", "cortex-m-source-masking");
    ("thumbv7-backend", "cortex-m-basepri");
    ("thumbv8main-backend", "cortex-m-basepri");
    ("riscv-esp32c3-backend", "riscv-esp32c3");
    ("riscv-esp32c6-backend", "riscv-esp32c6");
    ("riscv-clint-backend", "riscv-slic");
    ("riscv-mecall-backend", "riscv-slic") ].

(** What a build script tells cargo: [cargo::error=...] (the build fails) or the cfg it sets. *)
Inductive outcome (A : Type) := Fails | Sets (a : A).
Arguments Fails {A}.
Arguments Sets {A} a.

(** [slice::last], for [Vec::pop] *)
Fixpoint pop {A} (l : list A) : option (A * list A) :=
  match l with
  | [] => None
  | [x] => Some (x, [])
  | x :: r => match pop r with Some (y, r') => Some (y, x :: r') | None => None end
  end.

(** rtic/build.rs:12-58 [main]: the value of the cfg [implementation] *)
Definition rtic_build (e : env) : outcome string :=
  let bs := backends e in
  if Nat.ltb 1 (List.length bs) then Fails (* :16-19 *)
  else match pop bs with
       | None => Fails (* :21-24 *)
       | Some (b, _) =>
           match find (fun p => String.eqb (fst p) b) impls with (* :48-51 *)
           | Some (_, i) => Sets i
           | None => Fails (* :53-55 *)
           end
       end.

(** ** rtic/Cargo.toml:56-79 [features]: what each feature of [rtic] turns on *)

(** Features of the dependency [rtic-macros]; the feature table of [rtic] *)
Definition rtic_features : list (string * list string) :=
  [ ("default", []);
    ("thumbv6-backend", ["cortex-m-source-masking"]);
    ("thumbv7-backend", ["cortex-m-basepri"]);
    ("thumbv8base-backend", ["cortex-m-source-masking"]);
    ("thumbv8main-backend", ["cortex-m-basepri"]);
    ("riscv-esp32c3-backend", ["riscv-esp32c3"]);
    ("riscv-esp32c6-backend", ["riscv-esp32c6"]);
    ("riscv-clint-backend", ["riscv-clint"]);
    ("riscv-mecall-backend", ["riscv-mecall"]) ].

(** Features of the dependency [riscv-slic] (rtic/Cargo.toml:69,75) *)
Definition slic_features (f : string) : list string :=
  if String.eqb f "riscv-clint-backend" then ["clint-backend"]
  else if String.eqb f "riscv-mecall-backend" then ["mecall-backend"] else [].

(** rtic-macros/Cargo.toml:29-44 [features] *)
Definition macro_features : list string :=
  [ "default"; "cortex-m-source-masking"; "cortex-m-basepri"; "riscv-esp32c3"; "riscv-esp32c6";
    "riscv-clint"; "riscv-mecall"; "test-template" ].

(** Cargo's feature unification: [rtic-macros] is built once, with its default feature (rtic/Cargo.toml:34), the features the
    enabled features [F] of [rtic] ask for, and those [E] other crates of the build ask for. *)
Definition macro_enabled (F E : list string) : list string :=
  "default" :: flat_map (fun p => if in_dec string_dec (fst p) F then snd p else []) rtic_features ++ E.

(** ** rtic-macros/build.rs *)

(** rtic-macros/build.rs:1-7 [non_default_features] *)
Definition non_default_features (e : env) : list string :=
  filter_map (fun k => match strip_prefix "CARGO_FEATURE_" k with
                       | Some v => let f := norm v in if String.eqb f "default" then None else Some f
                       | None => None end) e.

(** rtic-macros/build.rs:9-29 [main]: whether the cfg [riscv_slic] is set *)
Definition macros_build (e : env) : outcome bool :=
  match pop (non_default_features e) with
  | None => Fails (* :12-15 *)
  | Some (f, rest) =>
      match rest with
      | _ :: _ => Fails (* :17-20 *)
      | [] => Sets (orb (String.eqb f "riscv-clint") (String.eqb f "riscv-mecall")) (* :24-26 *)
      end
  end.

(** ** The modules compiled in *)

Inductive mechanism := SourceMasking | Basepri | Esp32c3 | Esp32c6 | SlicClint | SlicMecall | Template.

(** rtic/src/export.rs:6-46: the implementation modules of [lock], [run], [pend] compiled for a value of [implementation];
    [sl] are the features of [riscv-slic], which decide what rtic/src/export/slic.rs's calls do. *)
Definition library_modules (impl : string) (sl : list string) : list mechanism :=
  (if String.eqb impl "cortex-m-basepri" then [Basepri] else [])
  ++ (if String.eqb impl "cortex-m-source-masking" then [SourceMasking] else [])
  ++ (if String.eqb impl "riscv-esp32c3" then [Esp32c3] else [])
  ++ (if String.eqb impl "riscv-esp32c6" then [Esp32c6] else [])
  ++ (if String.eqb impl "riscv-slic" then
        (if in_dec string_dec "clint-backend" sl then [SlicClint] else [])
        ++ (if in_dec string_dec "mecall-backend" sl then [SlicMecall] else [])
      else []).

(** rtic-macros/src/codegen/bindings.rs:1-29 (and syntax/backend.rs:1-29, with the same conditions), with the inner choices of
    bindings/cortex.rs:11-14 and bindings/riscv_slic.rs:151,225,230 and of bindings/esp32c3.rs:1-5, esp32c6.rs:1-5. *)
Definition macro_modules (fs : list string) (slic : bool) : list mechanism :=
  let on f := if in_dec string_dec f fs then true else false in
  (if orb (on "cortex-m-source-masking") (on "cortex-m-basepri") then
     (if on "cortex-m-basepri" then [Basepri] else []) ++ (if on "cortex-m-source-masking" then [SourceMasking] else [])
   else [])
  ++ (if on "test-template" then [Template] else [])
  ++ (if on "riscv-esp32c3" then [Esp32c3] else [])
  ++ (if on "riscv-esp32c6" then [Esp32c6] else [])
  ++ (if slic then (if on "riscv-clint" then [SlicClint] else []) ++ (if on "riscv-mecall" then [SlicMecall] else []) else []).
