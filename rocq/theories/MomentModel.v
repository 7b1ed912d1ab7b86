(** Model of utils/moment_energy_corrections.py and of the parts of ucc/spqe.py that evaluate
    residuals on the simulator (get_residual_vector, the circuit part of update_ansatz).  The
    algorithm object is [ucc] of GradModel; [ref] is self._ref (a list of 0 and 1, here of
    booleans), [refprep] self._refprep, [par] the evaluation mode of direct_op_exp_val.
    numpy's division by a zero denominator is not modelled: the quotient by zero of Coq's total
    division stands for it.  Printing and counters are left out. *)
From Coq Require Import Reals String List Arith NArith ZArith Bool.
From Verif Require Import CBase Result Spec GateModel ComputerModel LibProofs CircuitModel OperatorModel MeasureModel SQSpec SQModel SQPoolModel PyModel AnsatzModel GradModel ResModel SelectModel.
Import ListNotations.
Local Open Scope nat_scope.

(** moment_energy_corrections.py:46-51; None: not an int *)
Definition moment_rank (req : option Z) (nel : nat) : res nat :=
  match req with
  | None => Throw (PyError "TypeError")
  | Some r => if Z.ltb r 0 then Throw (PyError "TypeError") else Ok (if Z.ltb (Z.of_nat nel) r then nel else Z.to_nat r)
  end.
(** moment_energy_corrections.py:53-97, one determinant I: (pool with _mmcc_excitation_indices, _mpdenom) *)
Definition moment_entry (srt : sorter) (ref : list bool) (irreps : list N) (orb_e : list C) (max_rank : nat) (I : N) (st : list (N * list fterm) * list C) : res (list (N * list fterm) * list C) :=
  let alphas := py_bin (N.land I mask_alpha) in
  let betas := py_bin (N.land I mask_beta) in
  if Nat.eqb (py_count alphas) (count_every true ref) && Nat.eqb (py_count betas) (count_every false ref) then
    do g <- find_irrep irreps (ones_from_right alphas ++ ones_from_right betas)%list;
    if N.eqb g 0 then
      let x := N.lxor (spqe_ref ref) I in
      let excit := py_bin x in
      if N.eqb x 0 then Ok st else
      if Nat.leb (Nat.div (py_count excit) 2) max_rank then
        let occ_idx := pick excit ref true in
        let unocc_idx := pick excit ref false in
        do t <- sq_simplify srt (sq_add_term (sq_add_term [] C1 unocc_idx occ_idx) (- C1)%C (rev occ_idx) (rev unocc_idx));
        do eo <- energy_sum orb_e occ_idx;
        do eu <- energy_sum orb_e unocc_idx;
        Ok ((fst st ++ [(I, t)])%list, (snd st ++ [(eo - eu)%C])%list)
      else Ok st
    else Ok st
  else Ok st.
(** moment_energy_corrections.py:99-106, one operator of _mmcc_pool: <Phi_k|H|Phi_k> *)
Definition epstein_nesbet_entry (srt : sorter) (par : option schedule) (qe : bool) (n : nat) (refprep : list gate) (h : qop) (o : list fterm) : res C :=
  do qc <- apply_circuit (new_computer n) refprep;
  do q <- jw_transform srt qe o;
  do qc <- apply_operator qc (snd q);
  do e <- direct_op_exp_val par qc h;
  Ok (fst e).
(** moment_energy_corrections.py:20-106: the pool with its determinants, _mpdenom, _epstein_nesbet *)
Definition construct_moment_space (srt : sorter) (par : option schedule) (qe : bool) (ref : list bool) (irreps : list N) (orb_e : list C) (refprep : list gate) (h : qop) (req : option Z) : res (list (N * list fterm) * list C * list C) :=
  do max_rank <- moment_rank req (count_every true ref + count_every false ref);
  do st <- foreach (all_dets (length ref)) (moment_entry srt ref irreps orb_e max_rank) ([], []);
  do en <- foreach (fst st) (fun e l => do x <- epstein_nesbet_entry srt par qe (length ref) refprep h (snd e); Ok (l ++ [x])%list) [];
  Ok (st, en).

(** the residual state U^dagger e^{i dt H} U |Phi>: moment_energy_corrections.py:119-133, and
    spqe.py:434-440 with self._eiH of spqe.py:138-142 *)
Definition residual_state (srt : sorter) (sort : term_sorter) (s : ucc) (n : nat) (dt : R) : res computer :=
  do eiH <- trotterize (ham s) (mkC 0 dt) (trotter_number s) 1;
  do U <- ansatz_circuit srt sort (pool_type s) (compact s) (qubit_excitations s) (trotter_number s) (pool s) (tops s) (tamps s);
  do qc <- apply_circuit (new_computer n) (Uprep s);
  do qc <- apply_circuit qc U;
  do qc <- apply_circuit qc (fst eiH);
  apply_circuit qc (circuit_adjoint U).
(** sum(np.real(np.conj(r) * r / d)) *)
Definition moment_sum (rs ds : list C) : R := fold_right Rplus 0%R (map (fun rd => Re (cdiv (Cconj (fst rd) * fst rd)%C (snd rd))) (combine rs ds)).
(** moment_energy_corrections.py:109-157: the values appended to _E_mmcc_mp and _E_mmcc_en *)
Definition compute_moment_energies (srt : sorter) (sort : term_sorter) (s : ucc) (n : nat) (moment_dt : option R) (curr_energy : R) (indices : list N) (mpdenom epstein_nesbet : list C) : res (R * R) :=
  let dt := match moment_dt with None => 0.001%R | Some dt => dt end in
  do qc <- residual_state srt sort s n dt;
  do rs <- (if Req_EM_T dt 0 then Throw (PyError "ZeroDivisionError") else Ok (map (fun c => (c * RtoC (/ dt))%C) (coeff qc)));
  do mmcc <- foreach indices (fun I l => do r <- py_get rs (N.to_nat I); Ok (l ++ [r])%list) [];
  if (Nat.ltb (length mpdenom) (length mmcc)) || (Nat.ltb (length epstein_nesbet) (length mmcc)) then Throw (PyError "IndexError") else
  Ok ((curr_energy + moment_sum mmcc mpdenom)%R, (curr_energy + moment_sum mmcc (map (fun e => (RtoC curr_energy - e)%C) epstein_nesbet))%R).

(** spqe.py:374-426.  [pl] pairs the pool operators with _pool_idx_to_coeff_idx; [jacobi] is
    self._optimizer.lower() == "jacobi".  jw_transform simplifies the operator of the pool in
    place; its operators are already simplified, so the pool is left as it is. *)
Definition spqe_residual_vector (srt : sorter) (sort : term_sorter) (s : ucc) (n : nat) (refprep : list gate) (pl : list (N * list fterm)) (jacobi : bool) (trial_amps : list C) : res (list C * R) :=
  if negb (Nat.eqb (length trial_amps) (length (tops s))) then Throw (PyError "AssertionError") else
  do U <- ansatz_circuit srt sort (pool_type s) (compact s) (qubit_excitations s) (trotter_number s) (pool s) (tops s) trial_amps;
  do qc <- apply_circuit (new_computer n) (Uprep s);
  do qc <- apply_circuit qc U;
  do qc <- apply_operator qc (ham s);
  do qc <- apply_circuit qc (circuit_adjoint U);
  do rs <- foreach (tops s) (fun m rs =>
    do e <- (match nth_error pl m with Some e => Ok e | None => Throw (PyError "KeyError") end);
    do c <- py_get (coeff qc) (N.to_nat (fst e));
    do res_m <- (if jacobi then
        do qt <- apply_circuit (new_computer n) refprep;
        do q <- jw_transform srt (qubit_excitations s) (snd e);
        do qt <- apply_operator qt (snd q);
        do sign_adjust <- py_get (coeff qt) (N.to_nat (fst e));
        Ok (c * sign_adjust)%C
      else Ok c);
    if Req_EM_T (Im res_m) 0 then Ok (rs ++ [res_m])%list else Throw (PyError "ValueError")) [];
  Ok (rs, norm2 rs).
(** spqe.py:434-442: the amplitudes that update_ansatz reads (M_omega = inf) *)
Definition spqe_coeffs (srt : sorter) (sort : term_sorter) (s : ucc) (n : nat) (dt : R) : res (N -> C) :=
  do qc <- residual_state srt sort s n dt; Ok (fun I => nth (N.to_nat I) (coeff qc) C0).
