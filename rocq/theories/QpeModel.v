(** Model of qpea/qpe.py (QPE).  [draws] are the basis states sampled by the simulator
    (one per run, computer.cc); floating point numbers are exact reals.  Printing and
    verify_required_attributes are left out. *)
From Coq Require Import Reals String List Arith ZArith Bool.
From Verif Require Import CBase Result Bits Spec GateModel ComputerModel CircuitModel OperatorModel MeasureModel PyModel GradModel LibProofs.
Import ListNotations.
Local Open Scope R_scope.

(** what a QPE object reads: the number of state qubits, the circuit preparing the reference,
    the Hamiltonian, the number of Trotter steps, fast *)
Record qpe_options := mkQpeOptions { qp_nqb : nat; qp_Uprep : list gate; qp_ham : qop; qp_trotter : nat; qp_fast : bool }.

(** Python's round of a float: to the nearest integer, ties to the even one *)
Definition py_round (x : R) : Z :=
  let f := Int_part x in
  let d := x - IZR f in
  if Rltb d (1 / 2) then f
  else if Rltb (1 / 2) d then (f + 1)%Z
  else if Z.even f then f else (f + 1)%Z.
(** qpe.py:42-44: num_precise_bits + int(np.log2(2 + 1/eps)); success_prob = 1 divides by zero;
    success_prob > 1 (a negative eps) is not modelled *)
Definition n_ancilla (success_prob : R) (num_precise_bits : nat) : res nat :=
  let eps := 1 - success_prob in
  if Rltb 0 eps then Ok (num_precise_bits + Z.to_nat (Int_part (ln (2 + 1 / eps) / ln 2)))%nat
  else if Rltb eps 0 then Throw (PyError "not modelled: success_prob > 1")
  else Throw (PyError "ZeroDivisionError").

(** qpe.py:194-215 (get_Uhad) *)
Definition get_Uhad (abegin aend : nat) : res (list gate) :=
  foreach (seq abegin (aend + 1 - abegin)) (fun j c => do g <- py_gate2 "H" j j; Ok (c ++ [g])%list) [].
(** qpe.py:226-237: the scalars of the identity terms and the operator of the others *)
Definition split_terms (ham : qop) (t : R) : list C * qop :=
  fold_left (fun a u =>
    let phase := (mkC 0 (-1) * fst u * RtoC t)%C in
    if Nat.eqb (length (snd u)) 0 then ((fst a ++ [fst u * RtoC t])%list%C, snd a)
    else (fst a, (snd a ++ [(phase, snd u)])%list)) ham ([], []).
(** bindings.cc:281-290: gate(type, target, control, parameter) with a complex parameter *)
Definition py_gate3c (type : string) (target control : nat) (z : C) : res gate :=
  if Rltb (Im z) 0 || Rltb 0 (Im z) then Throw InvalidArg else py_gate3 type target control (Re z).
(** qpe.py:217-261 (get_dynamics_circ) *)
Definition get_dynamics_circ (o : qpe_options) (t : R) (abegin nanc : nat) : res (list gate) :=
  let st := split_terms (qp_ham o) t in
  foreach (seq 0 nanc) (fun n U =>
    let ancilla_idx := (abegin + n)%nat in
    do e <- trotterize_w_cRz (snd st) ancilla_idx C1 false (qp_trotter o) 1;
    do r <- py_gate3c "R" ancilla_idx ancilla_idx (mkC (-1) 0 * Csum (fun z => z) (fst st) * RtoC (2 ^ n))%C;
    Ok (U ++ [r] ++ concat (repeat (fst e) (2 ^ n)))%list) [].
(** qpe.py:263-304 (get_qft_circuit) *)
Definition get_qft_circuit (abegin aend : nat) (direct : string) : res (list gate) :=
  let lens := (aend + 1 - abegin)%nat in
  do c <- foreach (seq 0 lens) (fun j c => qft_stage abegin lens j c) [];
  if String.eqb direct "forward" then Ok c
  else if String.eqb direct "reverse" then Ok (circuit_adjoint c)
  else Throw (PyError "ValueError").
(** qpe.py:306-327 (get_z_circuit) *)
Definition get_z_circuit (abegin aend : nat) : res (list gate) :=
  foreach (seq abegin (aend + 1 - abegin)) (fun j c => do g <- py_gate2 "Z" j j; Ok (c ++ [g])%list) [].
(** qpe.py:64-75: the circuit Uqpe for [nanc] ancilla qubits *)
Definition qpe_circuit (o : qpe_options) (t : R) (nanc : nat) : res (list gate) :=
  let abegin := qp_nqb o in
  let aend := (qp_nqb o + nanc - 1)%nat in
  do h <- get_Uhad abegin aend;
  do d <- get_dynamics_circ o t abegin nanc;
  do f <- get_qft_circuit abegin aend "reverse";
  Ok (h ++ qp_Uprep o ++ d ++ f)%list.
(** qpe.py:77-90: the simulation and the readouts *)
Definition qpe_computer (o : qpe_options) (t : R) (nanc : nat) : res computer :=
  do U <- qpe_circuit o t nanc;
  apply_circuit (new_computer (qp_nqb o + nanc)) U.
Definition qpe_readouts (o : qpe_options) (nanc : nat) (q : computer) (draws : list nat) : res (list (list nat)) :=
  let abegin := qp_nqb o in
  let aend := (qp_nqb o + nanc - 1)%nat in
  if qp_fast o then Ok (measure_z_readouts_fast q abegin aend draws)
  else do Z <- get_z_circuit abegin aend; do r <- measure_readouts q Z draws; Ok (fst r).

(** qpe.py:93-94, 106-108: the number 0.z1z2... in base 2 *)
Definition phase_of (readout : list nat) : R :=
  fold_right Rplus 0 (map (fun iz => INR (snd iz) / 2 ^ fst iz) (combine (seq 1 (length readout)) readout)).
(** scipy.stats.mode of a non-empty array: the smallest of the most frequent values *)
Definition occurrences (x : R) (l : list R) : nat := length (filter (fun y => if Req_EM_T x y then true else false) l).
Definition mode (l : list R) : R :=
  fold_left (fun best x =>
    if Nat.ltb (occurrences best l) (occurrences x l) then x
    else if Nat.eqb (occurrences best l) (occurrences x l) && Rltb x best then x else best) l (hd 0 l).
(** qpe.py:110-112, 116-120: the energy of a phase *)
Definition energy_of (phase : R) (guess_periods : Z) (guess_energy t : R) : R :=
  let E_u := -2 * PI * (phase + IZR guess_periods - 1) / t in
  let E_l := -2 * PI * (phase + IZR guess_periods - 0) / t in
  if Rltb (Rabs (E_l - guess_energy)) (Rabs (E_u - guess_energy)) then E_l else E_u.
(** qpe.py:96-120: the results computed from the readouts *)
Record qpe_result := mkQpeResult { qr_phases : list R; qr_aves : list R; qr_readout : list nat; qr_final_phase : R; qr_Egs : R; qr_mode_phase : R; qr_mode_energy : R }.
Definition qpe_post (guess_energy t : R) (nruns nanc : nat) (z_readouts : list (list nat)) : res qpe_result :=
  let guess_periods := py_round (t * guess_energy / (-2 * PI)) in
  let phases := map phase_of z_readouts in
  do aves <- foreach (seq 0 nanc) (fun i a =>
    do s <- foreach z_readouts (fun r s => do z <- py_get r i; Ok (s + z)%nat) 0%nat;
    if Nat.eqb nruns 0 then Throw (PyError "ZeroDivisionError") else Ok (a ++ [INR s / INR nruns])%list) [];
  let final_readout := map (fun iave => if Rltb 0.5 iave then 1%nat else 0%nat) aves in
  let final_phase := phase_of final_readout in
  if Rltb t 0 || Rltb 0 t then
    Ok (mkQpeResult phases aves final_readout final_phase (energy_of final_phase guess_periods guess_energy t)
         (mode phases) (energy_of (mode phases) guess_periods guess_energy t))
  else Throw (PyError "ZeroDivisionError").
(** qpe.py:19-142 (run), with the number of ancilla qubits, the number of CNOTs and the
    number of measurements it reports; nruns is the number of draws *)
Definition qpe_run (o : qpe_options) (guess_energy t : R) (success_prob : R) (num_precise_bits : nat) (draws : list nat) : res (qpe_result * (nat * nat * nat)) :=
  do nanc <- n_ancilla success_prob num_precise_bits;
  do U <- qpe_circuit o t nanc;
  do q <- apply_circuit (new_computer (qp_nqb o + nanc)) U;
  do z <- qpe_readouts o nanc q draws;
  do r <- qpe_post guess_energy t (length draws) nanc z;
  Ok (r, (nanc, get_num_cnots U, length draws)).
(** qpe.py:144-147 *)
Definition qpe_run_realistic : res unit := Throw (PyError "NotImplementedError").
