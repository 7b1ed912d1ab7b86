(** Model of helper/io_helper.py:4-40 (smart_print): the text written to the standard output.  str of a
    Python complex number is the oracle [crepr]. *)
From Coq Require Import Reals String Ascii List Arith Bool.
From Verif Require Import CBase Result GateModel ComputerModel OperatorModel IoModel StrModel.
Import ListNotations.
Local Open Scope string_scope.

(** the argument of smart_print, by the isinstance tests of lines 16, 31 and 38 *)
Inductive printed := PrintOperator (o : qop) | PrintCircuit (gs : list gate) | PrintComputer (q : computer) | PrintOther.
(** sep.join(l) of Python *)
Fixpoint py_join (sep : string) (l : list string) : string := match l with [] => "" | [a] => a | a :: r => a ++ sep ++ py_join sep r end.
(** s[1:-1] *)
Definition slice_inner (s : string) : string := substring 1 (String.length s - 2) s.
(** the characters of a string, as "\n".join(s) iterates over them *)
Fixpoint characters (s : string) : list string := match s with EmptyString => [] | String c r => String c "" :: characters r end.
(** |Psi> in UTF-8 *)
Definition ket_psi : string := "|" ++ String (ascii_of_nat 206) (String (ascii_of_nat 168) "") ++ ">".
(** lines 26-29 and 33-36 *)
Definition in_parentheses (gs : list gate) : string :=
  let strp := circuit_str gs in
  let strp := split_at " " (slice_inner strp) in
  let strp := py_join " " strp in
  ("(" ++ strp ++ ")") ++ " " ++ ket_psi ++ nl.
(** io_helper.py:16-40 *)
Definition smart_print (fixed : R -> string) (crepr : C -> string) (print_threshold : R) (obj : printed) : res string :=
  match obj with
  | PrintOperator o =>
      let out := nl ++ " Quantum operator:" ++ nl in
      Ok (fst (fold_left (fun st t =>
        let out := if (snd st : bool) then fst st else fst st ++ "+" ++ " " in
        (out ++ crepr (fst t) ++ " " ++ in_parentheses (snd t), false)) o (out, true)))
  | PrintCircuit gs => Ok ((nl ++ " Quantum circuit:" ++ nl) ++ in_parentheses gs)
  | PrintComputer q =>
      do s <- computer_str fixed print_threshold q;
      Ok ((nl ++ " Quantum Computer:" ++ nl) ++ py_join nl (characters s) ++ nl)
  | PrintOther => Ok ""
  end.
