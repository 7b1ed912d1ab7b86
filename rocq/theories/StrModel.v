(** Model of the printed forms: src/qforte/helpers.cc, Gate::str, Circuit::str, QubitOperator::str,
    SQOperator::str, Computer::str and QubitBasis::str.  The number formatter fmt::format("{:+f}", x) is
    the oracle [fixed]; the shortest decimal form of a size_t is [dec] (IoModel). *)
From Coq Require Import Reals String Ascii List Arith NArith Bool.
From Verif Require Import CBase Result GateModel ComputerModel OperatorModel SQSpec SQPoolModel IoModel.
Import ListNotations.
Local Open Scope string_scope.

(** helpers.cc:5-15: every string but the last is followed by the separator *)
Definition join_cc (vec_str : list string) (sep : string) : string :=
  match vec_str with
  | [] => ""
  | _ => fold_left (fun ss s => ss ++ (s ++ sep)) (removelast vec_str) "" ++ last vec_str ""
  end.
(** helpers.cc:17-25 *)
Definition to_string (fixed : R -> string) (value : C) : string :=
  if Req_EM_T (Im value) 0 then fixed (Re value)
  else if Req_EM_T (Re value) 0 then fixed (Im value) ++ "j"
  else fixed (Re value) ++ " " ++ fixed (Im value) ++ "i".
Definition newline : ascii := ascii_of_nat 10.
Definition nl : string := String newline "".
(** gate.cc:113-118 *)
Definition gate_str (g : gate) : string :=
  if Nat.eqb (gtarget g) (gcontrol g) then glabel g ++ dec (gtarget g)
  else glabel g ++ dec (gtarget g) ++ "_" ++ dec (gcontrol g).
(** gate.cc:120-131; the loops run over index1 = {0, 1} or index2 = {0, 1, 2, 3} *)
Definition gate_repr (fixed : R -> string) (g : gate) : string :=
  let s := glabel g ++ " gate, target qubit:" ++ dec (gtarget g) ++ ", contol qubit:" ++ dec (gcontrol g) ++ nl in
  let index := if Nat.eqb (gnqubits g) 1 then [0; 1] else [0; 1; 2; 3] in
  fold_left (fun s i => fold_left (fun s j =>
      s ++ ("  " ++ fixed (Re (gmat g i j)) ++ " " ++ fixed (Im (gmat g i j)) ++ " i")) index s ++ nl) index s.
(** circuit.cc:184-191 *)
Definition circuit_str (gates : list gate) : string :=
  let s := fold_left (fun s g => (s ++ [gate_str g])%list) gates [] in
  "[" ++ join_cc (rev s) " " ++ "]".
(** qubit_operator.cc:170-176 *)
Definition qubit_operator_str (fixed : R -> string) (terms : qop) : string :=
  join_cc (fold_left (fun s t => (s ++ [(to_string fixed (fst t) ++ circuit_str (snd t))%string])%list) terms []) nl.
(** sq_operator.cc:171-186; a term is (coefficient, creators, annihilators) *)
Definition sq_operator_str (fixed : R -> string) (terms : list fterm) : string :=
  join_cc (fold_left (fun s t =>
    let s := (s ++ [to_string fixed (fst (fst t))])%list in
    let s := (s ++ ["("])%list in
    let s := fold_left (fun s k => (s ++ [(dec k ++ "^")%string])%list) (snd (fst t)) s in
    let s := fold_left (fun s k => (s ++ [dec k])%list) (snd t) s in
    (s ++ [(")" ++ nl)%string])%list) terms [""]) " ".
(** qubit_basis.cc:3-15; the loop over the bits is [qb_str] *)
Definition basis_str (state : N) (nqubit : nat) : res string :=
  do bits <- qb_str state nqubit;
  Ok ("|" ++ fold_left (fun s b => s ++ (if (b : bool) then "1" else "0")) bits "" ++ ">").
(** computer.cc:956-966: basis_[i] is the basis state i *)
Definition computer_str (fixed : R -> string) (print_threshold : R) (q : computer) : res string :=
  do terms <- foreach (seq 0 (nbasis q)) (fun i terms =>
    do c <- vget (coeff q) i;
    if negb (Rltb (Cabs c) print_threshold)
    then do b <- basis_str (N.of_nat i) (nqubit q); Ok (terms ++ [(to_string fixed c ++ " " ++ b)%string])%list
    else Ok terms) ["Computer("];
  Ok (join_cc (terms ++ [")"])%list nl).
(** sq_op_pool.cc:580-595; a pool is a list of (coefficient, operator) *)
Definition sq_pool_str (fixed : R -> string) (terms : list (C * list fterm)) : string :=
  join_cc (fst (fold_left (fun st t =>
    let s := fst st in
    let s := (s ++ ["----->"])%list in
    let s := (s ++ [dec (snd st)])%list in
    let s := (s ++ [("<-----" ++ nl)%string])%list in
    let s := (s ++ [to_string fixed (fst t)])%list in
    let s := (s ++ [("[" ++ nl)%string])%list in
    let s := (s ++ [sq_operator_str fixed (snd t)])%list in
    let s := (s ++ [("]" ++ nl ++ nl)%string])%list in
    (s, S (snd st))) terms ([""], 0))) " ".
(** qubit_op_pool.cc:177-193; a pool is a list of (coefficient, operator) *)
Definition qubit_pool_str (fixed : R -> string) (terms : list (C * qop)) : string :=
  join_cc (fst (fold_left (fun st t =>
    let s := fst st in
    let s := (s ++ ["----->"])%list in
    let s := (s ++ [dec (snd st)])%list in
    let s := (s ++ [("<-----" ++ nl)%string])%list in
    let s := (s ++ [to_string fixed (fst t)])%list in
    let s := (s ++ [("[" ++ nl)%string])%list in
    let s := (s ++ [qubit_operator_str fixed (snd t)])%list in
    let s := (s ++ [nl])%list in
    let s := (s ++ [("]" ++ nl ++ nl)%string])%list in
    (s, S (snd st))) terms ([""], 0))) " ".
