(** Model of the complete runs of UCCN-VQE (src/qforte/ucc/uccnvqe.py:39-276, the callback and
    gradient_ary_feval of src/qforte/abc/uccvqeabc.py:284-330) and UCCN-PQE
    (src/qforte/ucc/uccnpqe.py:48-130, src/qforte/abc/uccpqeabc.py:64-123), with the solvers of
    src/qforte/maths/optimizer.py:40-173.  scipy.optimize.minimize is an oracle.  The pool is the
    one that fill_pool leaves; moment corrections, verbose output and the tests that all
    attributes are set are left out.  Amplitudes are real numbers: the imaginary parts, which
    are zero, that numpy carries along after a division by complex orbital energies are dropped. *)
From Coq Require Import Reals String List Arith Bool.
From Verif Require Import CBase Result GateModel ComputerModel CircuitModel OperatorModel MeasureModel SQSpec SQModel SQPoolModel PyModel PointModel AnsatzModel GradModel DiisModel ResModel.
Import ListNotations.
Local Open Scope nat_scope.

(** scipy's OptimizeResult: x, fun, nfev, nit and njev, which the methods without gradients do not set *)
Record opt_result := mkOpt { opt_x : list R; opt_fun : R; opt_nfev : nat; opt_nit : nat; opt_njev : option nat }.
(** minimize(function, x0, method, jac, options); the callback is applied below, opt_nit times *)
Definition minimizer := string -> list (string * R) -> (list R -> res R) -> option (list R -> res (list R)) -> list R -> res opt_result.
Definition isin (x : string) (l : list string) : bool := existsb (String.eqb x) l.

(** everything the runs read besides the object [ucc]: options of run(), attributes of the
    constructor.  [hf_orbitals] is the system's hf_orbital_energies, if it has that attribute. *)
Record run_options := mkRun {
  optimizer : string; use_analytic_grad : bool; opt_thresh : R; opt_ftol : R; opt_maxiter : nat;
  noise_factor : R; diis_max_dim : nat; fast : bool; print_summary_file : bool; state_prep_type : string;
  ref : list nat; refprep : list gate; hf_orbitals : option (list C); Nl : nat }.
(** numpy, scipy and the random numbers *)
Record libraries := mkLib { minimize : minimizer; lstsq : lstsq_oracle; normal : nat -> R -> R -> R; par : option schedule; srt : sorter; sort : term_sorter }.

(** algorithm.py:290-334, 458-474: in slow mode the name compute is not defined *)
Definition energy_of (L : libraries) (o : run_options) (s : ucc) (t : list R) : res R :=
  if fast o then energy_feval (par L) (srt L) (sort L) s (map RtoC t)
  else do U <- build_Uvqc (srt L) (sort L) s (Some (map RtoC t)); Throw (PyError "NameError").
(** np.linalg.norm of real numbers *)
Definition rnorm (l : list R) : R := sqrt (fold_right Rplus 0%R (map (fun x => x * x)%R l)).
(** uccvqeabc.py:134-135, 285-298: the gradient and self._curr_grad_norm *)
Definition gradient_of (L : libraries) (o : run_options) (s : ucc) (t : list R) : res (list R * R) :=
  if negb (fast o) then Throw (PyError "ValueError") else
  do g <- measure_gradient (srt L) (sort L) s (Some (map RtoC t));
  let g := if Rltb 1e-14 (noise_factor o) then map (fun ig => normal L (fst ig) (snd ig) (noise_factor o)) (combine (seq 0 (length g)) g) else g in
  Ok (g, rnorm g).

(** what is written to summary.dat, in order *)
Inductive summary_line := Header | Iteration (k : nat).
(** uccvqeabc.py:300-330: [k] is the value of self._k_counter after line 301; None is the
    unbound name header.  header.replace(...) has no effect, and line 327 writes header again. *)
Definition vqe_report (o : run_options) (k : nat) (file : list summary_line) : res (list summary_line) :=
  let header := if Nat.eqb k 1 then Some Header else None in
  let file := if Nat.eqb k 1 && print_summary_file o then [Header] else file in
  if print_summary_file o then
    match header with Some h => Ok (file ++ [h])%list | None => Throw (PyError "UnboundLocalError") end
  else Ok file.
(** uccpqeabc.py:64-99 *)
Definition pqe_report (o : run_options) (k : nat) (file : list summary_line) : res (list summary_line) :=
  let file := if Nat.eqb k 1 && print_summary_file o then [Header] else file in
  Ok (if print_summary_file o then file ++ [Iteration k] else file)%list.
Definition reports (report : nat -> list summary_line -> res (list summary_line)) (nit : nat) : res (list summary_line) := foreach (seq 1 nit) report [].

Definition with_tamps (s : ucc) (t : list R) : ucc :=
  mkUcc (init s) (Uprep s) (ham s) (pool_type s) (compact s) (qubit_excitations s) (trotter_number s) (pool s) (tops s) (map RtoC t).
(** the attributes that a run sets: _Egs, _tamps, _n_classical_params, _n_cnot,
    _n_pauli_trm_measures, _n_nonzero_params, _res_vec_evals, and the summary file *)
Record run_result := mkResult { Egs : R; final_tamps : list R; n_classical_params : nat; n_cnot : nat; n_pauli_trm_measures : nat; n_nonzero_params : nat; res_vec_evals : nat; summary : list summary_line }.
(** uccnvqe.py:101-104, uccnpqe.py:117-120 *)
Definition nonzero_params (t : list R) : nat := length (filter (fun x => Rltb 1e-12 (Rabs x)) t).

(** ---- the quasi-Newton solver, optimizer.py:40-107 ---- *)
(** [direction t]: get_res_over_mpdenom of the residual (gradient) at t, and the recorded norm.
    Result: Ek, which is unbound without a pass, the state and the number of passes. *)
Fixpoint solver_loop (ls : lstsq_oracle) (max_dim : nat) (direction : list R -> res (list R * R)) (energy : list R -> res R) (thresh : R) (fuel k : nat) (Ek : option R) (st : jstate) : res (option R * jstate * nat) :=
  match fuel with
  | O => Ok (Ek, st, k)
  | S f =>
      do u <- direction (DiisModel.tamps st);
      do st' <- jacobi_step ls max_dim (fun _ => fst u) st;
      do E <- energy (DiisModel.tamps st');
      if Rltb (snd u) thresh then Ok (Some E, st', S k) else solver_loop ls max_dim direction energy thresh f (S k) (Some E) st'
  end.
Definition quasi_newton (L : libraries) (o : run_options) (direction : list R -> res (list R * R)) (energy : list R -> res R) (t0 : list R) : res (R * list R * nat) :=
  do Ek0 <- energy t0;
  do r <- solver_loop (lstsq L) (diis_max_dim o) direction energy (opt_thresh o) (opt_maxiter o) 0 None (jacobi_init t0);
  match fst (fst r) with None => Throw (PyError "UnboundLocalError") | Some E => Ok (E, DiisModel.tamps (snd (fst r)), snd r) end.
(** ansatz.py:84-121 *)
Definition orbital_energies (L : libraries) (o : run_options) (s : ucc) : res (list C) :=
  match hf_orbitals o with Some e => Ok (orb_energies_hf e) | None => orb_energies_computed (par L) (ref o) (refprep o) (ham s) end.
(** optimizer.py:66-73: the residual over the denominators *)
Definition over_denominators (o : run_options) (orb_e : list C) (s : ucc) (r : list C) : res (list R) :=
  do d <- get_res_over_mpdenom (ref o) orb_e (pool s) (tops s) r; Ok (map Re d).

(** ---- UCCN-VQE ---- *)
(** uccnvqe.py:54-60: the spelling of the names is compared as it is *)
Definition analytic (o : run_options) : bool := use_analytic_grad o && negb (isin (optimizer o) ["nelder-mead"; "powell"; "cobyla"]%string).
(** uccnvqe.py:196-213, without the option disp *)
Definition vqe_opts (o : run_options) : list (string * R) :=
  [("maxiter"%string, INR (opt_maxiter o))] ++
  (if isin (optimizer o) ["BFGS"%string; "CG"%string; "L-BFGS-B"%string; "TNC"%string; "trust-constr"%string] then [("gtol"%string, opt_thresh o)] else []) ++
  (if String.eqb (optimizer o) "Nelder-Mead"%string then [("fatol"%string, opt_ftol o)] else []) ++
  (if isin (optimizer o) ["Powell"%string; "L-BFGS-B"%string; "TNC"%string; "SLSQP"%string] then [("ftol"%string, opt_ftol o)] else []) ++
  (if String.eqb (optimizer o) "COBYLA"%string then [("tol"%string, opt_ftol o)] else []) ++
  (if isin (optimizer o) ["L-BFGS-B"%string; "TNC"%string] then [("maxfun"%string, INR (opt_maxiter o))] else []).
(** uccnvqe.py:234-241, 254-255; [m] is the counter so far *)
Definition vqe_measures (o : run_options) (r : opt_result) (m : nat) : res nat :=
  if analytic o then
    do m <- foreach (opt_x r) (fun tmu m =>
      if Rltb 1e-12 (Rabs tmu) then match opt_njev r with Some j => Ok (m + 2 * Nl o * j) | None => Throw (PyError "AttributeError") end
      else Ok m) m;
    Ok (m + Nl o * opt_nfev r)
  else Ok (m + Nl o * opt_nfev r).
(** uccnvqe.py:191-272.  With the optimizer "POWELL" the energy is read as res.fun[()], the same number. *)
Definition scipy_solve (L : libraries) (o : run_options) (s : ucc) (x0 : list R) : res run_result :=
  do e0 <- energy_of L o s x0;
  do r <- minimize L (optimizer o) (vqe_opts o) (energy_of L o s) (if analytic o then Some (fun t => do g <- gradient_of L o s t; Ok (fst g)) else None) x0;
  do file <- reports (vqe_report o) (opt_nit r);
  do m <- vqe_measures o r 0;
  do U <- build_Uvqc (srt L) (sort L) (with_tamps s (opt_x r)) None;
  Ok (mkResult (opt_fun r) (opt_x r) (length (opt_x r)) (get_num_cnots U) m 0 (match opt_njev r with Some j => j | None => 0 end) file).
(** uccnvqe.py:184-186 and optimizer.py:107-127 *)
Definition vqe_jacobi (L : libraries) (o : run_options) (s : ucc) (x0 : list R) : res run_result :=
  do orb_e <- orbital_energies L o s;
  do r <- quasi_newton L o (fun t => do g <- gradient_of L o s t; do d <- over_denominators o orb_e s (map RtoC (fst g)); Ok (d, snd g)) (energy_of L o s) x0;
  let '(E, t, k) := r in
  do U <- build_Uvqc (srt L) (sort L) (with_tamps s t) None;
  Ok (mkResult E t (length t) (get_num_cnots U) (2 * Nl o * k * length t + Nl o * k) 0 k []).
Definition set_nonzero (r : run_result) : run_result :=
  mkResult (Egs r) (final_tamps r) (n_classical_params r) (n_cnot r) (n_pauli_trm_measures r) (nonzero_params (final_tamps r)) (res_vec_evals r) (summary r).
(** uccnvqe.py:39-115, 274-279: initialize_ansatz takes the whole pool *)
Definition vqe_start (s : ucc) : ucc :=
  mkUcc (init s) (Uprep s) (ham s) (pool_type s) (compact s) (qubit_excitations s) (trotter_number s) (pool s) (seq 0 (length (pool s))) (map RtoC (repeat 0%R (length (pool s)))).
Definition vqe_run (L : libraries) (o : run_options) (s : ucc) : res run_result :=
  let x0 := repeat 0%R (length (pool s)) in
  do r <- (if String.eqb (lower (optimizer o)) "jacobi" then vqe_jacobi L o (vqe_start s) x0 else scipy_solve L o (vqe_start s) x0);
  Ok (set_nonzero r).

(** ---- UCCN-PQE ---- *)
(** uccpqeabc.py:101-106: sum of the squared absolute values of the residuals *)
Definition sum_residual_square (L : libraries) (o : run_options) (s : ucc) (dets : list (nat * C)) (t : list R) : res R :=
  do r <- get_residual_vector (srt L) (sort L) s (length (ref o)) dets (noise_factor o) (normal L) (map RtoC t);
  Ok (fold_right Rplus 0%R (map (fun c => Cabs c * Cabs c)%R (fst r))).
(** optimizer.py:120-134, without the options disp and adaptive *)
Definition pqe_opts (o : run_options) : list (string * R) :=
  [("maxiter"%string, INR (opt_maxiter o))] ++
  (if isin (lower (optimizer o)) ["bfgs"%string; "cg"%string; "l-bfgs-b"%string] then [("gtol"%string, opt_thresh o)] else []) ++
  (if String.eqb (lower (optimizer o)) "nelder-mead"%string then [("fatol"%string, opt_thresh o)] else []) ++
  (if isin (lower (optimizer o)) ["powell"%string; "l-bfgs-b"%string; "slsqp"%string] then [("ftol"%string, opt_thresh o)] else []).
(** optimizer.py:119-173: amplitudes, energy, evaluations of the objective, file *)
Definition pqe_scipy (L : libraries) (o : run_options) (s : ucc) (dets : list (nat * C)) (x0 : list R) : res (R * list R * nat * list summary_line) :=
  do e0 <- energy_of L o s x0;
  do r <- minimize L (optimizer o) (pqe_opts o) (sum_residual_square L o s dets) None x0;
  do file <- reports (pqe_report o) (opt_nit r);
  do E <- energy_of L o s (opt_x r);
  Ok (E, opt_x r, opt_nfev r, file).
(** optimizer.py:40-107 for UCCNPQE *)
Definition pqe_jacobi (L : libraries) (o : run_options) (s : ucc) (orb_e : list C) (dets : list (nat * C)) (x0 : list R) : res (R * list R * nat * list summary_line) :=
  do r <- quasi_newton L o (fun t =>
    do g <- get_residual_vector (srt L) (sort L) s (length (ref o)) dets (noise_factor o) (normal L) (map RtoC t);
    do d <- over_denominators o orb_e s (fst g); Ok (d, snd g)) (energy_of L o s) x0;
  Ok (fst (fst r), snd (fst r), snd r, []).
(** uccpqeabc.py:108-123 *)
Definition pqe_solve (L : libraries) (o : run_options) (s : ucc) (orb_e : list C) (dets : list (nat * C)) (x0 : list R) : res (R * list R * nat * list summary_line) :=
  if String.eqb (lower (optimizer o)) "jacobi" then pqe_jacobi L o s orb_e dets x0
  else if isin (lower (optimizer o)) ["nelder-mead"; "powell"; "bfgs"; "l-bfgs-b"; "cg"; "slsqp"]%string then pqe_scipy L o s dets x0
  else Throw (PyError "NotImplementedError").
(** the object after initialize_ansatz and fill_excited_dets *)
Definition pqe_start (s : ucc) (pool' : sqpool) : ucc :=
  mkUcc (init s) (Uprep s) (ham s) (pool_type s) (compact s) (qubit_excitations s) (trotter_number s) pool' (fst (initialize_ansatz (pool s) [] [])) (snd (initialize_ansatz (pool s) [] [])).
(** uccnpqe.py:48-130 *)
Definition pqe_run (L : libraries) (o : run_options) (s : ucc) : res run_result :=
  if negb (String.eqb (state_prep_type o) "occupation_list") then Throw (PyError "ValueError") else
  do pd <- fill_excited_dets (srt L) (qubit_excitations s) (ref o) (refprep o) (pool s) [];
  let s' := pqe_start s (fst pd) in
  do orb_e <- orbital_energies L o s';
  do r <- pqe_solve L o s' orb_e (snd pd) (repeat 0%R (length (pool s)));
  let '(E, t, evals, file) := r in
  do U <- build_Uvqc (srt L) (sort L) (with_tamps s' t) None;
  let nz := nonzero_params t in
  Ok (mkResult E t (length t) (get_num_cnots U) (2 * Nl o * evals * nz + Nl o * evals) nz evals file).
