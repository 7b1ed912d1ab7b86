(** Model of utils/compute_matrix_element.py, experiment/experiment.py, abc/qsdabc.py and
    qkd/srqk.py (SRQK).  A numpy matrix is a function nat -> nat -> C. *)
From Coq Require Import Reals String List Arith Bool.
From Verif Require Import CBase Result Bits Spec GateModel ComputerModel CircuitModel OperatorModel MeasureModel PyModel EigModel GradModel LibProofs.
Import ListNotations.
Local Open Scope C_scope.
Local Open Scope list_scope.

(** compute_matrix_element.py:4-43 *)
Definition compute_operator_matrix_element (n_qubit : nat) (U_bra U_ket : list gate) (QOp : option qop) : res C :=
  do comp <- apply_circuit (new_computer n_qubit) U_ket;
  do comp <- match QOp with None => Ok comp | Some o => apply_operator comp o end;
  do comp <- apply_circuit comp (circuit_adjoint U_bra);
  py_get (coeff comp) 0.

(** experiment.py:10-110: an Experiment with prepare_each_time=False (True raises Exception).
    [perfect_experimental_avg] and [experimental_avg]; the samples of the k-th term are
    drawn by the oracle [draws k] (N_samples of them). *)
Definition perfect_experimental_avg (n_qubits : nat) (generator : list gate) (operator : qop) : res R :=
  do qc <- apply_circuit (new_computer n_qubits) generator;
  do s <- foreach operator (fun t st =>
     do r <- perfect_measure_circuit (snd st) (snd t);
     Ok (fst st + fst t * RtoC (fst r), snd r)%C) (C0, qc);
  Ok (Re (fst s)).
Definition experimental_avg (n_qubits : nat) (generator : list gate) (operator : qop) (draws : list (list nat)) (N_samples : nat) : res R :=
  do qc <- apply_circuit (new_computer n_qubits) generator;
  do s <- foreach (combine operator draws) (fun td st =>
     do r <- measure_circuit (snd st) (snd (fst td)) (snd td);
     Ok (fst st + fst (fst td) * RtoC (fold_right Rplus 0%R (fst r)), snd r)%C) (C0, qc);
  Ok (Re (fst s * RtoC (/ INR N_samples))).

(** M[i][j] = v on a numpy matrix *)
Definition mset (M : mat) (i j : nat) (v : C) : mat := fun a b => if Nat.eqb a i && Nat.eqb b j then v else M a b.
Definition mzero : mat := fun _ _ => C0.
(** what an SRQK object reads *)
Record qk_options := mkQkOptions { qk_nqb : nat; qk_Uprep : list gate; qk_ham : qop; qk_trotter : nat; qk_dt : R; qk_s : nat; qk_root : nat; qk_each_step : bool }.
Record qk_state := mkQk { q_h : mat; q_s : mat; q_omega : list (list C); q_Homega : list (list C) }.
(** srqk.py:137-147: U_m and its phase *)
Definition srqk_U (o : qk_options) (m : nat) : res (list gate * C) :=
  if Nat.ltb 0 m then
    do r <- trotterize (qk_ham o) (mkC 0 (- (INR m * qk_dt o))) (qk_trotter o) 1;
    Ok (qk_Uprep o ++ fst r, snd r)
  else Ok (qk_Uprep o, C1).
(** srqk.py:149-153 *)
Definition srqk_prep (o : qk_options) (m : nat) : res computer :=
  do U <- srqk_U o m;
  do QC <- apply_circuit (new_computer (qk_nqb o)) (fst U);
  Ok (apply_constant QC (snd U)).
(** srqk.py:153-175 (printing and the condition number are left out): one pass of the loop
    over m; nt_srqk.py:150-175 is the same with another preparation of QC *)
Definition qk_step (eig : eig_oracle) (o : qk_options) (prep : nat -> res computer) (m : nat) (st : qk_state) : res qk_state :=
  do QC <- prep m;
  let omega_lst := q_omega st ++ [coeff QC] in
  do QC <- apply_operator QC (qk_ham o);
  let Homega_lst := q_Homega st ++ [coeff QC] in
  do hs <- foreach (seq 0 (length omega_lst)) (fun n hs =>
     do om <- py_get omega_lst m;
     do Hon <- py_get Homega_lst n;
     do on <- py_get omega_lst n;
     do hv <- vdot om Hon;
     let h := mset (fst hs) m n hv in
     let h := mset h n m (Cconj (h m n)) in
     do sv <- vdot om on;
     let s := mset (snd hs) m n sv in
     let s := mset s n m (Cconj (s m n)) in
     Ok (h, s)) (q_h st, q_s st);
  let st' := mkQk (fst hs) (snd hs) omega_lst Homega_lst in
  if qk_each_step o then
    do e <- canonical_geig_solve eig (m + 1) (q_s st') (q_h st') true;
    do _x <- py_get (fst e) (qk_root o);
    Ok st'
  else Ok st'.
(** srqk.py:103-205 (build_qk_mats_fast) *)
Definition build_qk_mats (eig : eig_oracle) (o : qk_options) (prep : nat -> res computer) : res qk_state :=
  foreach (seq 0 (qk_s o + 1)) (qk_step eig o prep) (mkQk mzero mzero [] []).
(** qsdabc.py:85-118: the eigenvalues, the eigenvectors, _Egs and _Ets *)
Record qk_result := mkQkResult { r_S : mat; r_H : mat; r_eigenvalues : list C; r_eigenvectors : mat; r_Egs : R; r_Ets : R }.
Definition common_run (eig : eig_oracle) (o : qk_options) (prep : nat -> res computer) : res qk_result :=
  do st <- build_qk_mats eig o prep;
  do e <- canonical_geig_solve eig (qk_s o + 1) (q_s st) (q_h st) true;
  do e0 <- py_get (fst e) 0;
  do er <- py_get (fst e) (qk_root o);
  Ok (mkQkResult (q_s st) (q_h st) (fst e) (snd e) (Re e0) (Re er)).
(** srqk.py:45-62 (run, fast) *)
Definition srqk_run (eig : eig_oracle) (o : qk_options) : res qk_result := common_run eig o (srqk_prep o).
(** srqk.py:195-203: the final counters of parameters, CNOTs and Pauli measurements *)
Definition srqk_counts (o : qk_options) : res (nat * nat * nat) :=
  do U <- srqk_U o (qk_s o);
  let k := (qk_s o + 1)%nat in let Nl := length (qk_ham o) in
  Ok (k, 2 * get_num_cnots (fst U), k * Nl + k * (k - 1) * Nl + k * (k - 1))%nat.

(** srqk.py:222-345 (matrix_element).  The loop over gates of controlled Pauli operators uses
    gate_id() and target(). *)
Definition hadamard_test (o : qk_options) (Uk cV Ub : list gate) : res C :=
  let a := qk_nqb o in
  do h <- py_gate2 "H" a a;
  do x <- py_gate2 "X" a a;
  do y <- py_gate2 "Y" a a;
  let cir := qk_Uprep o ++ [h] ++ Uk ++ cV ++ [x] ++ Ub ++ [x] in
  do x_value <- perfect_experimental_avg (qk_nqb o + 1) cir [(C1, [x])];
  do y_value <- perfect_experimental_avg (qk_nqb o + 1) cir [(C1, [y])];
  Ok (RtoC x_value + Ci * RtoC y_value)%C.
Definition controlled_string (a : nat) (V : list gate) : res (list gate) :=
  foreach V (fun g c => do cg <- py_gate2 ("c" ++ glabel g)%string (gtarget g) a; Ok (c ++ [cg])) [].
Definition matrix_element (o : qk_options) (m n : nat) (use_op : bool) : res C :=
  let a := qk_nqb o in
  let temp_op k := map (fun t => (mkC 0 (- (INR k * qk_dt o)) * fst t, snd t)) (qk_ham o) in
  do Uk <- trotterize_w_cRz (temp_op n) a C1 false (qk_trotter o) 1;
  do Ub <- trotterize_w_cRz (temp_op m) a C1 false (qk_trotter o) 1;
  if use_op then
    foreach (qk_ham o) (fun t value =>
      do cV <- controlled_string a (snd t);
      do v <- hadamard_test o (fst Uk) cV (fst Ub);
      Ok (value + fst t * (v * snd Uk * Cconj (snd Ub)))) C0
  else
    do v <- hadamard_test o (fst Uk) [] (fst Ub);
    Ok (v * snd Uk * Cconj (snd Ub)).
(** srqk.py:207-219 (build_qk_mats_realistic) *)
Definition build_qk_mats_realistic (o : qk_options) : res (mat * mat) :=
  foreach (seq 0 (qk_s o + 1)) (fun p hs =>
    foreach (seq p (qk_s o + 1 - p)) (fun q hs =>
      do hv <- matrix_element o p q true;
      let h := mset (fst hs) p q hv in
      let h := mset h q p (Cconj (h p q)) in
      do sv <- matrix_element o p q false;
      let s := mset (snd hs) p q sv in
      let s := mset s q p (Cconj (s p q)) in
      Ok (h, s)) hs) (mzero, mzero).
