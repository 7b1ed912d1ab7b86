(** Model of the Python helpers src/qforte/utils/{exponentiate,trotterization,state_prep,qft}.py
    and src/qforte/helper/advance_gates_helper.py.  A Circuit is the list of its gates, a
    QubitOperator the list of its (coefficient, circuit) terms. *)
From Coq Require Import Reals String List Arith NArith ZArith Bool.
From Verif Require Import CBase Result Bits Spec GateModel LibProofs CircuitModel ComputerModel SQPoolModel.
Import ListNotations.

Local Open Scope string_scope.
(** ---- bindings.cc:238-290: the Python function qforte.gate ---- *)
(** gate(type, target, control) with two integers: bindings.cc:257-279 *)
Definition py_gate2 (type : string) (target control : nat) : res gate :=
  if existsb (String.eqb type) ["SWAP"; "cV"; "CNOT"; "cX"; "aCNOT"; "acX"; "cY"; "cZ"]
  then make_gate type target control 0
  else if Nat.eqb target control && existsb (String.eqb type) ["X"; "Y"; "Z"; "H"; "V"; "S"; "T"; "I"]
  then make_gate type target control 0
  else Throw InvalidArg.
(** gate(type, target, control, parameter) with a real parameter: bindings.cc:281-290 *)
Definition py_gate3 (type : string) (target control : nat) (p : R) : res gate := make_gate type target control p.
(** an argument that is None makes every overload fail: TypeError *)
Definition py_int (x : option nat) : res nat :=
  match x with Some n => Ok n | None => Throw (PyError "TypeError") end.

(** np.exp of a complex number *)
Definition Cexp (z : C) : C := (RtoC (exp (Re z)) * Ccis (Im z))%C.

(** ---- utils/exponentiate.py:42-60: the loop building to_z and cX_circ (to_original is
    never used) ---- *)
Record exp_acc := mkAcc { to_z : list gate; cX_circ : list gate; prev_target : option nat; max_target : option nat }.
Definition exp_step (g : gate) (a : exp_acc) : res exp_acc :=
  let id := glabel g in
  let target := gtarget g in
  let control := gcontrol g in
  let tail tz :=
    do cx <- (match prev_target a with
              | Some p => do x <- py_gate2 "cX" target p; Ok (cX_circ a ++ [x])%list
              | None => Ok (cX_circ a)
              end);
    Ok (mkAcc tz cx (Some target) (Some target)) in
  if id =? "X" then do h <- py_gate2 "H" target control; tail (to_z a ++ [h])%list
  else if id =? "Y" then do h <- py_gate3 "Rx" target control (PI / 2); tail (to_z a ++ [h])%list
  else if id =? "I" then Ok a
  else tail (to_z a).

(** utils/exponentiate.py:9-87 *)
Definition exponentiate_pauli_string (coefficient : C) (term : list gate)
    (Use_cRz : bool) (ancilla_idx : option nat) (Use_open_cRz : bool) : res (list gate * C) :=
  if Rltb 1e-14 (Rabs (Re coefficient)) then Throw (PyError "ValueError")
  else match term with
  | [] => Ok ([], Cexp coefficient)
  | _ =>
    do a <- foreach term exp_step (mkAcc [] [] None None);
    do z_rot <- (do t <- py_int (max_target a);
                 if Use_cRz then do anc <- py_int ancilla_idx; py_gate3 "cRz" t anc (-2.0 * Im coefficient)%R
                 else py_gate3 "Rz" t t (-2.0 * Im coefficient)%R);
    do x <- (if Use_open_cRz then do anc <- py_int ancilla_idx; do g <- py_gate2 "X" anc anc; Ok [g] else Ok []);
    Ok ((to_z a ++ cX_circ a ++ x ++ [z_rot] ++ x ++ circuit_adjoint (cX_circ a) ++ circuit_adjoint (to_z a))%list, C1)
  end.

(** ---- utils/trotterization.py ---- *)
(** lines 29-35 and 49-55 of trotterize, 93-103 and 116-126 of trotterize_w_cRz: gates and
    phases of the terms are appended and multiplied up *)
Definition exp_terms (Use_cRz : bool) (anc : option nat) (Use_open_cRz : bool) (terms : list (C * list gate)) : res (list gate * C) :=
  foreach terms (fun t s =>
    do r <- exponentiate_pauli_string (fst t) (snd t) Use_cRz anc Use_open_cRz;
    Ok ((fst s ++ fst r)%list, (snd s * snd r)%C)) ([], C1).
(** the common body of trotterization.py:10-57 (trotterize) and 60-128 (trotterize_w_cRz) *)
Definition trotter_body (Use_cRz : bool) (anc : option nat) (Use_open_cRz : bool)
    (operator : list (C * list gate)) (factor : C) (trotter_number trotter_order : nat) : res (list gate * C) :=
  if Nat.eqb trotter_number 1 && Nat.eqb trotter_order 1 then
    exp_terms Use_cRz anc Use_open_cRz (map (fun t => (factor * fst t, snd t)%C) operator)
  else if Nat.ltb 1 trotter_order then Throw (PyError "NotImplementedError")
  else
    let ho_op := flat_map (fun _ => map (fun t => (factor * fst t * RtoC (/ INR trotter_number), snd t)%C) operator)
                   (seq 1 trotter_number) in
    exp_terms Use_cRz anc Use_open_cRz ho_op.
Definition trotterize (operator : list (C * list gate)) (factor : C) (trotter_number trotter_order : nat) :=
  trotter_body false None false operator factor trotter_number trotter_order.
Definition trotterize_w_cRz (operator : list (C * list gate)) (ancilla : nat) (factor : C) (Use_open_cRz : bool)
    (trotter_number trotter_order : nat) :=
  trotter_body true (Some ancilla) Use_open_cRz operator factor trotter_number trotter_order.

(** ---- utils/state_prep.py; a determinant is a list of non-negative integers ---- *)
(** state_prep.py:5-11 *)
Definition build_refprep (ref : list nat) : res (list gate) :=
  foreach (combine (seq 0 (length ref)) ref) (fun jo c =>
    if Nat.eqb (snd jo) 0 then Ok c
    else do g <- py_gate2 "X" (fst jo) (fst jo); Ok (c ++ [g])%list) [].
(** state_prep.py:192-212: the digits of the reversed list read in base 2; int("",2) and a
    digit above 1 raise ValueError (entries with several decimal digits are not modelled) *)
Definition ref_to_basis_idx (ref : list nat) : res N :=
  match ref with
  | [] => Throw (PyError "ValueError")
  | _ => foreach (rev ref) (fun d v =>
           if Nat.ltb 1 d then Throw (PyError "ValueError") else Ok (2 * v + N.of_nat d)%N) 0%N
  end.
(** state_prep.py:14-19 *)
Definition ref_string (ref : list nat) (nqb : nat) : res (list bool) :=
  do i <- ref_to_basis_idx ref; qb_str i nqb.
(** state_prep.py:22-50 *)
Definition integer_to_ref (n : N) (nqubits : nat) : res (list nat) :=
  foreach (seq 0 nqubits) (fun i ref => do b <- qb_get_bit n i; Ok (ref ++ [if b then 1 else 0])%list) [].
(** state_prep.py:53-72 *)
Definition open_shell (ref : list nat) : bool :=
  existsb (fun i => Nat.eqb (nth (2 * i) ref 0 + nth (2 * i + 1) ref 0) 1) (seq 0 (Nat.div (length ref) 2)).
(** twice the spin projection: state_prep.py:93-99, 165-170 (multiples of 0.5 are exact in
    floating point) *)
Definition twice_spin (ref : list nat) : Z :=
  fold_left (fun s i => (s + Z.of_nat (nth (2 * i)%nat ref 0%nat) - Z.of_nat (nth (2 * i + 1)%nat ref 0%nat))%Z) (seq 0 (Nat.div (length ref) 2)) 0%Z.
(** state_prep.py:75-104 with abs_spin = s/2 *)
Definition correct_spin (ref : list nat) (s : Z) : bool := Z.eqb (Z.abs (twice_spin ref)) s.
(** state_prep.py:107-140 *)
Definition flip_spin (ref : list nat) (orb : nat) : list nat :=
  list_set (list_set ref (2 * orb) (nth (2 * orb + 1) ref 0)) (2 * orb + 1) (nth (2 * orb) ref 0).
Definition det_eqb (a b : list nat) : bool := if list_eq_dec Nat.eq_dec a b then true else false.
(** state_prep.py:178-182: the list grows while it is iterated over; [i] is the position of
    the iterator *)
Fixpoint eq_dets_loop (fuel i : nat) (orbs : list nat) (l : list (list nat)) : res (list (list nat)) :=
  match fuel with
  | O => Throw OutOfFuel
  | S f => match nth_error l i with
           | None => Ok l
           | Some ref =>
               eq_dets_loop f (S i) orbs
                 (fold_left (fun l orb => let temp := flip_spin ref orb in
                    if existsb (det_eqb temp) l then l else (l ++ [temp])%list) orbs l)
           end
  end.
(** state_prep.py:143-189; [fuel] bounds the number of iterations (2^(number of orbitals) + 1
    always suffices, see PropPy) *)
Definition build_eq_dets (fuel : nat) (ref : list nat) : res (list (list nat)) :=
  let norb := Nat.div (length ref) 2 in
  let one_e_orbs := filter (fun i => Nat.eqb (nth (2 * i) ref 0 + nth (2 * i + 1) ref 0) 1) (seq 0 norb) in
  do l <- eq_dets_loop fuel 0 one_e_orbs [ref];
  Ok (filter (fun r => correct_spin r (Z.abs (twice_spin ref))) l).

(** ---- utils/qft.py ---- *)
(** qft.py:19-23 *)
Definition qft_stage (na lens j : nat) (c : list gate) : res (list gate) :=
  do h <- py_gate2 "H" (j + na) (j + na);
  foreach (seq 2 (lens + 1 - j - 2)) (fun k c =>
    do g <- py_gate3 "cR" (j + na) (j + k - 1 + na) (2.0 * PI / 2 ^ k)%R; Ok (c ++ [g])%list) (c ++ [h])%list.
(** qft.py:5-40.  lens = nb - na + 1 (0 when negative: all loops are then empty) *)
Definition qft_circuit (na nb : nat) (direct : string) : res (list gate) :=
  let lens := nb + 1 - na in
  do c <- foreach (seq 0 lens) (fun j c => qft_stage na lens j c) [];
  do c <- foreach (seq 0 (if Nat.even lens then Nat.div lens 2 else Nat.div (lens - 1) 2)) (fun i c =>
    do g <- py_gate2 "SWAP" (i + na) (lens - 1 - i + na); Ok (c ++ [g])%list) c;
  if direct =? "forward" then Ok c
  else if direct =? "reverse" then Ok (circuit_adjoint c)
  else Throw (PyError "ValueError").
(** qft.py:43-65; the loop over the copy of the coefficients has no effect *)
Definition qft (q : computer) (na nb : nat) : res computer :=
  do c <- qft_circuit na nb "forward"; apply_circuit q c.
(** qft.py:68-91 *)
Definition rev_qft (q : computer) (na nb : nat) : res computer :=
  do c <- qft_circuit na nb "reverse"; apply_circuit q (circuit_adjoint c).

(** ---- helper/advance_gates_helper.py ---- *)
(** advance_gates_helper.py:13-48 *)
Definition Toffoli (i j k : nat) : res (list gate) :=
  do T1 <- py_gate2 "T" i i; do T2 <- py_gate2 "T" j j; do T3 <- py_gate2 "T" k k;
  do C12 <- py_gate2 "cX" j i; do C13 <- py_gate2 "cX" k i; do C23 <- py_gate2 "cX" k j;
  do H3 <- py_gate2 "H" k k;
  Ok [H3; C23; gate_adjoint T3; C13; T3; C23; gate_adjoint T3; C13; T2; T3; C12; H3; T1; gate_adjoint T2; C12].
(** advance_gates_helper.py:51-75 *)
Definition Fredkin (i j k : nat) : res (list gate) :=
  do C12 <- py_gate2 "cX" j i; do C32 <- py_gate2 "cX" j k;
  do CV23 <- py_gate2 "cV" k j; do CV13 <- py_gate2 "cV" k i;
  Ok [C32; CV23; CV13; C12; gate_adjoint CV23; C32; C12].
