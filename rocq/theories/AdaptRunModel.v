(** Model of the complete runs of ADAPT-VQE (src/qforte/ucc/adaptvqe.py:81-241, 314-515) with the
    gradients of src/qforte/abc/uccvqeabc.py:253-283 and the solver of
    src/qforte/maths/optimizer.py:40-117.  The selection of operators and the convergence test
    are those of SelectModel.v, the energies and the options those of RunModel.v.
    scipy.optimize.minimize is an oracle.  The pool is the one that fill_pool builds; moment
    corrections, printing and the contents of summary.dat are left out.  The object [s] stands
    for the attributes that do not change; its amplitudes and operators are not read. *)
From Coq Require Import Reals String List Arith NArith ZArith Bool.
From Verif Require Import CBase Result GateModel ComputerModel CircuitModel OperatorModel MeasureModel SQSpec SQModel SQPoolModel PyModel PointModel AnsatzModel GradModel DiisModel ResModel SelectModel RunModel.
Import ListNotations.
Local Open Scope nat_scope.

(** the object with another pool, other operators and amplitudes *)
Definition with_ansatz (s : ucc) (pool' : sqpool) (tops' : list N) (t : list R) : ucc :=
  mkUcc (init s) (Uprep s) (ham s) (pool_type s) (compact s) (qubit_excitations s) (trotter_number s) pool' (map N.to_nat tops') (map RtoC t).
(** the second half of fill_pool, algorithm.py:305-307: self._Nm.  jw_transform simplifies the
    operators of the pool in place; it is called without qubit_excitations. *)
Definition pool_lengths (srt : sorter) (p : sqpool) : res (sqpool * list nat) :=
  foreach p (fun e st =>
    do r <- jw_transform srt false (snd e);
    Ok ((fst st ++ [(fst e, fst r)])%list, (snd st ++ [length (snd r)])%list)) ([], []).

(** adaptvqe.py:324-327, without the option disp *)
Definition adapt_scipy_opts (o : run_options) : list (string * R) := [("gtol"%string, opt_thresh o); ("maxiter"%string, INR (opt_maxiter o))].
(** what solve leaves: the energy appended to _energies, _tamps, the entry of _n_cnot_lst, the
    entry of _n_pauli_trm_measures_lst, the object appended to _results *)
Record solved := mkSolved { so_energy : R; so_tamps : list R; so_cnot : nat; so_measures : nat; so_result : option opt_result }.
(** adaptvqe.py:345-363; [m] is the value of _n_pauli_measures_k *)
Definition adapt_measures (o : run_options) (Nm : list nat) (tops' : list nat) (r : opt_result) (m : nat) : res nat :=
  if analytic o then
    foreach tops' (fun top m =>
      do nm <- py_get Nm top;
      match opt_njev r with Some j => Ok (m + nm * Nl o * j) | None => Throw (PyError "AttributeError") end) (m + Nl o * opt_nfev r)
  else Ok (m + Nl o * opt_nfev r).
(** scipy_solve, adaptvqe.py:321-377; report_iteration is the method of UCCVQE *)
Definition adapt_scipy (L : libraries) (o : run_options) (Nm : list nat) (s : ucc) (x0 : list R) (m : nat) : res solved :=
  do e0 <- energy_of L o s x0;
  do r <- minimize L (optimizer o) (adapt_scipy_opts o) (energy_of L o s) (if analytic o then Some (fun t => do g <- gradient_of L o s t; Ok (fst g)) else None) x0;
  do _ <- reports (vqe_report o) (opt_nit r);
  do m' <- adapt_measures o Nm (tops s) r m;
  do U <- build_Uvqc (srt L) (sort L) (with_tamps s (opt_x r)) None;
  Ok (mkSolved (opt_fun r) (opt_x r) (get_num_cnots U) m' (Some r)).
(** adaptvqe.py:314-319, optimizer.py:40-117 *)
Definition adapt_jacobi (L : libraries) (o : run_options) (s : ucc) (x0 : list R) (m : nat) : res solved :=
  do orb_e <- orbital_energies L o s;
  do r <- quasi_newton L o (fun t => do g <- gradient_of L o s t; do d <- over_denominators o orb_e s (map RtoC (fst g)); Ok (d, snd g)) (energy_of L o s) x0;
  do U <- build_Uvqc (srt L) (sort L) (with_tamps s (snd (fst r))) None;
  Ok (mkSolved (fst (fst r)) (snd (fst r)) (get_num_cnots U) (m + Nl o * snd r * (2 * length (snd (fst r)) + 1)) None).
Definition use_jacobi (o : run_options) : bool := String.eqb (lower (optimizer o)) "jacobi".
Definition adapt_inner (L : libraries) (o : run_options) (Nm : list nat) (s : ucc) (x0 : list R) (m : nat) : res solved :=
  if use_jacobi o then adapt_jacobi L o s x0 m else adapt_scipy L o Nm s x0 m.

(** adaptvqe.py:380-402: the measurements of the pool gradients *)
Definition gradient_measures (o : run_options) (Nm : list nat) (grads : list R) : res nat :=
  foreach (enumerate grads) (fun mg m => do nm <- py_get Nm (N.to_nat (fst mg)); Ok (m + Nl o * nm)) 0.
(** options of run() that RunModel does not have *)
Record adapt_settings := mkSettings { avqe_threshold : R; max_macro : Z; cumulative_thresh : bool; equiv_ops : bool }.
Definition select_opts (o : run_options) (ao : adapt_settings) : adapt_opts := mkAO (avqe_threshold ao) (max_macro ao) (cumulative_thresh ao) (equiv_ops ao) (use_jacobi o).
(** attributes that change: the pool, those of the selection, _n_pauli_trm_measures_lst, _results *)
Record adapt_state := mkAS { as_pool : sqpool; as_sel : astate; as_measures : list nat; as_results : list opt_result }.
(** update_ansatz and, if it has not converged, solve *)
Definition macro_iteration (L : libraries) (o : run_options) (ao : adapt_settings) (Nm : list nat) (s : ucc) (st : adapt_state) : res adapt_state :=
  let sel := as_sel st in
  do pg <- measure_gradient3 (srt L) (sort L) (with_ansatz s (as_pool st) (a_tops sel) (a_tamps sel));
  do m <- gradient_measures o Nm (snd pg);
  do sel1 <- update_ansatz (select_opts o ao) (snd pg) sel;
  if a_conv sel1 then Ok (mkAS (fst pg) sel1 (as_measures st) (as_results st)) else
  do r <- adapt_inner L o Nm (with_ansatz s (fst pg) (a_tops sel1) (a_tamps sel1)) (a_tamps sel1) m;
  Ok (mkAS (fst pg) (adapt_solve (select_opts o ao) (fun _ _ _ => (so_energy r, so_tamps r, so_cnot r)) 0 sel1) (as_measures st ++ [so_measures r])
    (match so_result r with Some x => as_results st ++ [x] | None => as_results st end))%list.
(** adaptvqe.py:162-191: the state and hit_maxiter *)
Fixpoint macro_loop (L : libraries) (o : run_options) (ao : adapt_settings) (Nm : list nat) (s : ucc) (fuel k : nat) (st : adapt_state) : res (adapt_state * bool) :=
  match fuel with
  | O => Throw OutOfFuel
  | S f =>
      do st1 <- macro_iteration L o ao Nm s st;
      if a_conv (as_sel st1) then Ok (st1, false)
      else if Z.ltb (max_macro ao - 1) (Z.of_nat (S k)) then Ok (st1, true)
      else macro_loop L o ao Nm s f (S k) st1
  end.
(** what a run leaves *)
Record adapt_result := mkAdapt { ar_Egs : R; ar_tops : list N; ar_tamps : list R; ar_energies : list R; ar_norms : list R; ar_params_lst : list nat; ar_cnot_lst : list nat; ar_measures_lst : list nat; ar_results : list opt_result;
  ar_params : nat; ar_cnot : nat; ar_measures : nat; ar_converged : bool; ar_pool : sqpool }.
(** run, adaptvqe.py:81-241 *)
Definition adapt_vqe_run (L : libraries) (o : run_options) (ao : adapt_settings) (s : ucc) : res adapt_result :=
  do _ <- energy_of L o (with_ansatz s (pool s) [] []) [];
  do pn <- pool_lengths (srt L) (pool s);
  do r <- macro_loop L o ao (snd pn) s (S (Z.to_nat (max_macro ao))) 0 (mkAS (fst pn) adapt_init [] []);
  let st := fst r in let sel := as_sel st in
  do final <- (if snd r then
      do e <- py_last (a_energies sel);
      if negb (use_jacobi o) && Nat.eqb (length (as_results st)) 0 then IndexError else Ok (Some e)
    else Ok (a_final sel));
  match final with
  | None => Throw (PyError "AttributeError")
  | Some e => do c <- py_last (a_ncnot sel);
      Ok (mkAdapt e (a_tops sel) (a_tamps sel) (a_energies sel) (a_norms sel) (a_nparams sel) (a_ncnot sel) (as_measures st) (as_results st)
        (length (a_tamps sel)) c (fold_right plus 0 (as_measures st)) (a_conv sel) (as_pool st))
  end.
(** adaptvqe.py:470-482: the returned number and the new value of the attribute, whose value was
    [before]; run itself calls both once, starting from 0 *)
Definition get_num_ham_measurements (r : adapt_result) (before : nat) : nat := fold_left (fun a x => a + opt_nfev x) (ar_results r) before.
Definition get_num_commut_measurements (o : run_options) (r : adapt_result) (before : nat) : res nat :=
  let start := before + length (ar_tamps r) * length (ar_pool r) in
  if analytic o then
    foreach (combine (seq 0 (length (ar_results r))) (ar_results r)) (fun mx a =>
      match opt_njev (snd mx) with Some j => Ok (a + j * (fst mx + 1)) | None => Throw (PyError "AttributeError") end) start
  else Ok start.
