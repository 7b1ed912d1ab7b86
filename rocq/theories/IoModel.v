(** Model of helper/io_helper.py (build_circuit, build_operator) and adapters/model_adapters.py
    (create_TFIM).  Strings are ASCII.  float() and complex() of a string are oracles that return
    None where Python raises ValueError; the printing functions are left out. *)
From Coq Require Import Reals String Ascii List Arith ZArith Bool DecimalString.
From Verif Require Import CBase Result GateModel CircuitModel OperatorModel PyModel.
Import ListNotations.
Local Open Scope string_scope.

(** str.isspace for ASCII *)
Definition is_space (c : ascii) : bool := let n := nat_of_ascii c in (Nat.leb 9 n && Nat.leb n 13) || (Nat.leb 28 n && Nat.leb n 32).
(** the pieces between the characters satisfying p: the first one and the others *)
Fixpoint pieces (p : ascii -> bool) (s : string) : string * list string :=
  match s with
  | EmptyString => ("", [])
  | String c r => let q := pieces p r in if p c then ("", fst q :: snd q) else (String c (fst q), snd q)
  end.
(** s.split(c) for a character c, and s.split() *)
Definition split_at (c : ascii) (s : string) : list string := let q := pieces (Ascii.eqb c) s in fst q :: snd q.
Definition split_space (s : string) : list string := let q := pieces is_space s in filter (fun w => negb (String.eqb w "")) (fst q :: snd q).
(** int(s): decimal digits, with an optional sign (spaces and underscores do not occur here) *)
Definition digits_of (s : string) : res nat :=
  match NilZero.uint_of_string s with Some u => Ok (Nat.of_uint u) | None => Throw (PyError "ValueError") end.
Definition int_of (s : string) : res Z :=
  match s with
  | String "-" r => do n <- digits_of r; Ok (- Z.of_nat n)%Z
  | String "+" r => do n <- digits_of r; Ok (Z.of_nat n)
  | _ => do n <- digits_of s; Ok (Z.of_nat n)
  end.
(** the conversion of an integer argument to size_t by pybind11 (no upper limit) *)
Definition to_size (z : Z) : res nat := if Z.ltb z 0 then Throw (PyError "TypeError") else Ok (Z.to_nat z).
(** s in label, for one character *)
Fixpoint has_char (c : ascii) (s : string) : bool := match s with EmptyString => false | String d r => Ascii.eqb c d || has_char c r end.
(** l[i] *)
Definition item {A} (l : list A) (i : nat) : res A := match nth_error l i with Some x => Ok x | None => Throw (PyError "IndexError") end.
(** qforte.gate with integers as Python passes them *)
Definition gate2z (l : string) (t c : Z) : res gate := do t <- to_size t; do c <- to_size c; py_gate2 l t c.
Definition gate3z (l : string) (t c : Z) (p : R) : res gate := do t <- to_size t; do c <- to_size c; py_gate3 l t c p.
(** io_helper.py:56-75: one gate *)
Definition parse_gate (flt : string -> option R) (word : string) : res gate :=
  let parts := split_at "_" word in
  do l <- item parts 0;
  if Nat.eqb (length parts) 2 then
    do w <- item parts 1; do t <- int_of w; gate2z l t t
  else if has_char "R" l then
    do w <- item parts 1; do t <- int_of w;
    do v <- item parts 2; match flt v with Some p => gate3z l t t p | None => Throw (PyError "ValueError") end
  else
    do w <- item parts 1; do t <- int_of w;
    do v <- item parts 2; do c <- int_of v; gate2z l t c.
(** io_helper.py:51-77 *)
Definition build_circuit (flt : string -> option R) (s : string) : res (list gate) :=
  foreach (split_space s) (fun word c => do g <- parse_gate flt word; Ok (c ++ [g])%list) [].
(** io_helper.py:88-94 *)
Definition build_operator (flt : string -> option R) (cplx : string -> option C) (s : string) : res qop :=
  foreach (split_at ";" s) (fun term o =>
    let parts := split_at "," term in
    do w <- item parts 0;
    match cplx w with
    | None => Throw (PyError "ValueError")
    | Some c => do v <- item parts 1; do gs <- build_circuit flt v; Ok (op_add_term o c gs)
    end) [].
(** str(i) *)
Definition dec (n : nat) : string := NilZero.string_of_uint (Nat.to_uint n).
(** model_adapters.py:5-31: hamiltonian and hf_reference *)
Definition create_TFIM (flt : string -> option R) (n : nat) (h J : R) : res (qop * list nat) :=
  let circuit := (map (fun i => ((- h)%R, ("Z_" ++ dec i)%string)) (seq 0 n) ++ map (fun i => ((- J)%R, ("X_" ++ dec i ++ " X_" ++ dec (i + 1))%string)) (seq 0 (n - 1)))%list in
  do H <- foreach circuit (fun t o => do gs <- build_circuit flt (snd t); Ok (op_add_term o (RtoC (fst t)) gs)) [];
  Ok (H, repeat 0 n).
(** system_factory.py:33-57: the adapter that is called *)
Inductive adapter := External | Psi4 | TFIM.
Definition choose_adapter (system_type build_type : string) : res adapter :=
  if String.eqb system_type "molecule" then
    if String.eqb build_type "external" then Ok External else if String.eqb build_type "psi4" then Ok Psi4 else Throw (PyError "TypeError")
  else if String.eqb system_type "model" then
    if String.eqb build_type "TFIM" then Ok TFIM else Throw (PyError "TypeError")
  else Throw (PyError "TypeError").
