(** Model of the complete runs of SPQE (src/qforte/ucc/spqe.py:56-310, 374-443, 522-614) with the
    solvers of src/qforte/maths/optimizer.py:40-173 and src/qforte/abc/uccpqeabc.py:64-123, for
    M_omega = 'inf'.  The pool, the selection and the convergence test are those of
    SelectModel.v, the residuals those of MomentModel.v, the energies and options those of
    RunModel.v.  scipy.optimize.minimize is an oracle.  Moment corrections, printing and the
    contents of summary.dat are left out.  The object [s] stands for the attributes that do not
    change: its pool, amplitudes and operators are not read.  self._eiH, a function of these
    attributes, is recomputed in every macro-iteration.  The entries of self._ref are 0 or 1. *)
From Coq Require Import Reals String List Arith NArith ZArith Bool.
From Verif Require Import CBase Result GateModel ComputerModel CircuitModel OperatorModel MeasureModel SQSpec SQModel SQPoolModel PyModel PointModel AnsatzModel GradModel DiisModel ResModel SelectModel MomentModel RunModel.
Import ListNotations.
Local Open Scope nat_scope.

(** the object with the pool that run builds (spqe.py:217: all coefficients are 0.0) and
    operators and amplitudes of the ansatz *)
Definition spqe_object (s : ucc) (pl : list (N * list fterm)) (tops' : list nat) (t : list R) : ucc :=
  mkUcc (init s) (Uprep s) (ham s) (pool_type s) (compact s) (qubit_excitations s) (trotter_number s) (map (fun e => (C0, snd e)) pl) tops' (map RtoC t).
Definition is_jacobi_run (o : run_options) : bool := String.eqb (lower (optimizer o)) "jacobi".
(** spqe.py:374-425 *)
Definition spqe_residuals (L : libraries) (o : run_options) (s : ucc) (pl : list (N * list fterm)) (t : list R) : res (list C * R) :=
  spqe_residual_vector (srt L) (sort L) s (length (ref o)) (refprep o) pl (is_jacobi_run o) (map RtoC t).
(** uccpqeabc.py:101-106 *)
Definition spqe_objective (L : libraries) (o : run_options) (s : ucc) (pl : list (N * list fterm)) (t : list R) : res R :=
  do r <- spqe_residuals L o s pl t;
  Ok (fold_right Rplus 0%R (map (fun c => Cabs c * Cabs c)%R (fst r))).
(** solve: energy and amplitudes, the number of evaluations of the residual vector, and the
    factor k with which Pauli measurements are counted (passes, or calls of the callback) *)
Record micro := mkMicro { mi_energy : R; mi_tamps : list R; mi_evals : nat; mi_k : nat }.
(** optimizer.py:40-117 *)
Definition spqe_jacobi (L : libraries) (o : run_options) (s : ucc) (orb_e : list C) (pl : list (N * list fterm)) (x0 : list R) : res micro :=
  do r <- quasi_newton L o (fun t => do g <- spqe_residuals L o s pl t; do d <- over_denominators o orb_e s (fst g); Ok (d, snd g)) (energy_of L o s) x0;
  Ok (mkMicro (fst (fst r)) (snd (fst r)) (snd r) (snd r)).
(** optimizer.py:119-173 *)
Definition spqe_scipy (L : libraries) (o : run_options) (s : ucc) (pl : list (N * list fterm)) (x0 : list R) : res micro :=
  do e0 <- energy_of L o s x0;
  do r <- minimize L (optimizer o) (pqe_opts o) (spqe_objective L o s pl) None x0;
  do E <- energy_of L o s (opt_x r);
  Ok (mkMicro E (opt_x r) (opt_nfev r) (opt_nit r)).
(** uccpqeabc.py:108-123 *)
Definition spqe_micro (L : libraries) (o : run_options) (s : ucc) (orb_e : list C) (pl : list (N * list fterm)) (x0 : list R) : res micro :=
  if is_jacobi_run o then spqe_jacobi L o s orb_e pl x0
  else if isin (lower (optimizer o)) ["nelder-mead"; "powell"; "bfgs"; "l-bfgs-b"; "cg"; "slsqp"]%string then spqe_scipy L o s pl x0
  else Throw (PyError "NotImplementedError").

(** attributes that change: those of the selection, _n_pauli_trm_measures_lst, _res_vec_evals,
    _res_m_evals *)
Record spqe_state := mkSps { ss_sel : sstate; ss_measures : list nat; ss_vec : nat; ss_m : nat }.
(** spqe.py:242-264: update_ansatz and, if it has not converged, solve *)
Definition spqe_iteration (L : libraries) (o : run_options) (so : spqe_opts) (s : ucc) (orb_e : list C) (pl : list (N * list fterm)) (iter : nat) (st : spqe_state) : res spqe_state :=
  let sel := ss_sel st in
  let obj := spqe_object s pl (s_tops sel) (s_tamps sel) in
  do e0 <- energy_of L o obj (s_tamps sel);
  do c <- spqe_coeffs (srt L) (sort L) obj (length (ref o)) (sp_dt so);
  do sel1 <- spqe_update so pl c iter sel;
  if s_conv sel1 then Ok (mkSps sel1 (ss_measures st) (ss_vec st) (ss_m st)) else
  let obj1 := spqe_object s pl (s_tops sel1) (s_tamps sel1) in
  do r <- spqe_micro L o obj1 orb_e pl (s_tamps sel1);
  do U <- build_Uvqc (srt L) (sort L) (with_tamps obj1 (mi_tamps r)) None;
  Ok (mkSps (spqe_solve (fun _ _ _ => (mi_energy r, mi_tamps r, get_num_cnots U)) iter sel1)
    (ss_measures st ++ [Nl o * mi_k r * (2 * length (mi_tamps r) + 1)]) (ss_vec st + mi_evals r) (ss_m st + mi_evals r * length (s_tops sel1)))%list.
Fixpoint spqe_macro_loop (L : libraries) (o : run_options) (so : spqe_opts) (s : ucc) (orb_e : list C) (pl : list (N * list fterm)) (fuel iter : nat) (st : spqe_state) : res spqe_state :=
  match fuel with
  | O => Throw OutOfFuel
  | S f =>
      if s_stop (ss_sel st) then Ok st else
      do st1 <- spqe_iteration L o so s orb_e pl iter st;
      if s_conv (ss_sel st1) then Ok st1 else spqe_macro_loop L o so s orb_e pl f (S iter) st1
  end.
(** what a run leaves *)
Record spqe_result := mkSpqe { sr_Egs : R; sr_pool : list (N * list fterm); sr_tops : list nat; sr_tamps : list R; sr_energies : list R; sr_nbody : list nat; sr_params_lst : list nat; sr_cnot_lst : list nat; sr_measures_lst : list nat;
  sr_params : nat; sr_cnot : nat; sr_measures : nat; sr_vec_evals : nat; sr_m_evals : nat; sr_converged : bool }.
(** system attributes orb_irreps_to_int, the target irrep, and the option max_excit_rank *)
Record spqe_system := mkSys { sy_irreps : list N; sy_irrep : N; sy_rank : option Z }.
Definition bits_of_ref (l : list nat) : list bool := map (fun b => negb (Nat.eqb b 0)) l.
(** run, spqe.py:56-310 *)
Definition spqe_full_run (L : libraries) (o : run_options) (so : spqe_opts) (sy : spqe_system) (s : ucc) : res spqe_result :=
  if negb (String.eqb (state_prep_type o) "occupation_list") then Throw (PyError "ValueError") else
  do pl <- build_pool (srt L) (bits_of_ref (ref o)) (sy_irreps sy) (sy_irrep sy) (sy_rank sy);
  do orb_e <- orbital_energies L o s;
  do st <- spqe_macro_loop L o so s orb_e pl (S (S (S (Z.to_nat (spqe_maxiter so))))) 1 (mkSps (spqe_init (bits_of_ref (ref o))) [] 0 0);
  let sel := ss_sel st in
  do e <- py_last (s_energies sel);
  do c <- py_last (s_ncnot sel);
  Ok (mkSpqe e pl (s_tops sel) (s_tamps sel) (s_energies sel) (s_nbody sel) (s_nparams sel) (s_ncnot sel) (ss_measures st) (length (s_tamps sel)) c (fold_right plus 0 (ss_measures st)) (ss_vec st) (ss_m st) (s_conv sel)).
