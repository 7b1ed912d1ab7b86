(** Model of the energy and gradient evaluations of the UCC variational algorithms:
    build_Uvqc, measure_energy (fast), energy_feval (src/qforte/abc/algorithm.py:271-334, 458-474)
    and measure_gradient, measure_gradient3 (src/qforte/abc/uccvqeabc.py:122-283).  The object
    is the list of its attributes; [init] is get_initial_computer(), [Uprep] self._Uprep, [ham]
    self._qb_ham.  The checks that real numbers have no imaginary part
    (np.testing.assert_allclose, np.isclose) always pass and are left out. *)
From Coq Require Import Reals String List Arith Bool.
From Verif Require Import CBase Result GateModel ComputerModel CircuitModel OperatorModel SparseModel MeasureModel SQSpec SQModel SQPoolModel PyModel CompactModel AnsatzModel.
Import ListNotations.
Local Open Scope nat_scope.

(** l[i] of a Python list, or the store l[i] = x of a numpy array, for a non-negative i *)
Definition py_get {A} (l : list A) (i : nat) : res A := match nth_error l i with Some x => Ok x | None => Throw (PyError "IndexError") end.
Definition py_set {A} (l : list A) (i : nat) (x : A) : res (list A) := if i <? length l then Ok (list_set l i x) else Throw (PyError "IndexError").
(** np.vdot *)
Definition vdot (a b : list C) : res C := if Nat.eqb (length a) (length b) then inner_product a b C0 else Throw (PyError "ValueError").

(** everything about the algorithm object that the functions below read *)
Record ucc := mkUcc {
  init : computer; Uprep : list gate; ham : qop;
  pool_type : string; compact : bool; qubit_excitations : bool; trotter_number : nat;
  pool : sqpool; tops : list nat; tamps : list C }.

(** algorithm.py:271-288; ansatz.py:36 *)
Definition amplitudes (s : ucc) (params : option (list C)) : list C := match params with None => tamps s | Some p => p end.
Definition build_Uvqc (srt : sorter) (sort : term_sorter) (s : ucc) (params : option (list C)) : res (list gate) :=
  do U <- ansatz_circuit srt sort (pool_type s) (compact s) (qubit_excitations s) (trotter_number s) (pool s) (tops s) (amplitudes s params);
  Ok (Uprep s ++ U)%list.
(** algorithm.py:309-334, 458-474 with self._fast; [par] as in MeasureModel.direct_op_exp_val *)
Definition energy_feval (par : option schedule) (srt : sorter) (sort : term_sorter) (s : ucc) (params : list C) : res R :=
  do U <- build_Uvqc srt sort s (Some params);
  do qc <- apply_circuit (init s) U;
  do v <- direct_op_exp_val par qc (ham s);
  Ok (Re (fst v)).

(** self._pool_obj[top][1].jw_transform(qubit_excitations) multiplied with the coefficient of
    the pool entry, uccvqeabc.py:154-157, 176-179 (__getitem__ returns a copy) *)
Definition pool_K (srt : sorter) (s : ucc) (top : nat) : res qop :=
  do e <- pool_item (pool s) top;
  do r <- jw_transform srt (qubit_excitations s) (snd e);
  Ok (op_mult_coeffs (snd r) (fst e)).
(** the phase test after trotterize, uccvqeabc.py:220-223, 232-235 *)
Definition without_phase (r : list gate * C) : res (list gate) := if Ceq_dec (snd r) C1 then Ok (fst r) else Throw (PyError "ValueError").
(** Umu, uccvqeabc.py:181-235, for the pool entry [o] at tops[mu+1] *)
Definition undo_circuit (srt : sorter) (s : ucc) (o : list fterm) (Kprev : qop) (tamp : C) : res (list gate) :=
  let qe := qubit_excitations s in
  let half := firstn (length o / 2) o in
  if compact s then
    if String.eqb (pool_type s) "sa_SD" then
      foreach half (fun t U => do c <- compact_excitation_circuit (tamp * fcoef t)%C (fann t) (fcre t) qe; Ok (U ++ c)%list) []
    else
      do t <- py_get o 1;
      compact_excitation_circuit (- tamp * fcoef t)%C (fcre t) (fann t) qe
  else
    if String.eqb (pool_type s) "sa_SD" then
      foreach half (fun t U =>
        do q <- jw_transform srt qe (sq_add_term (sq_add_term [] (fcoef t) (fcre t) (fann t)) (- fcoef t)%C (fann t) (fcre t));
        do r <- trotterize (snd q) (- tamp)%C (trotter_number s) 1;
        do c <- without_phase r;
        Ok (U ++ c)%list) []
    else
      do r <- trotterize Kprev (- tamp)%C (trotter_number s) 1;
      without_phase r.
(** 2.0 * np.real(np.vdot(qc_sig.get_coeff_vec(), qc_temp.get_coeff_vec())) with
    qc_temp = K applied to a copy of qc_psi *)
Definition grad_element (qc_sig qc_psi : computer) (K : qop) : res R :=
  do qc_temp <- apply_operator qc_psi K;
  do v <- vdot (coeff qc_sig) (coeff qc_temp);
  Ok (2 * Re v)%R.
(** uccvqeabc.py:122-251.  Without amplitudes self._tops[-1] or grads[-1] is an IndexError. *)
Definition measure_gradient (srt : sorter) (sort : term_sorter) (s : ucc) (params : option (list C)) : res (list R) :=
  let M := length (tamps s) in
  do Utot <- build_Uvqc srt sort s params;
  do qc_psi <- apply_circuit (init s) Utot;
  do qc_sig <- apply_operator qc_psi (ham s);
  if Nat.eqb M 0 then Throw (PyError "IndexError") else
  do top <- py_get (tops s) (M - 1);
  do K <- pool_K srt s top;
  do g <- grad_element qc_sig qc_psi K;
  do grads <- py_set (repeat 0%R M) (M - 1) g;
  do r <- foreach (rev (seq 0 (M - 1))) (fun mu st =>
    let '(qc_sig, qc_psi, Kprev, grads) := st in
    do tamp <- py_get (amplitudes s params) (mu + 1);
    do top <- py_get (tops s) mu;
    do K <- pool_K srt s top;
    do top' <- py_get (tops s) (mu + 1);
    do e <- pool_item (pool s) top';
    do Umu <- undo_circuit srt s (snd e) Kprev tamp;
    do qc_sig <- apply_circuit qc_sig Umu;
    do qc_psi <- apply_circuit qc_psi Umu;
    do g <- grad_element qc_sig qc_psi K;
    do grads <- py_set grads mu g;
    Ok (qc_sig, qc_psi, K, grads)) (qc_sig, qc_psi, K, grads);
  Ok (snd r).
(** uccvqeabc.py:253-283.  The iterator over the pool yields references, so that jw_transform
    simplifies the operators of the pool: the new pool is returned as well. *)
Definition measure_gradient3 (srt : sorter) (sort : term_sorter) (s : ucc) : res (sqpool * list R) :=
  do Utot <- build_Uvqc srt sort s None;
  do qc_psi <- apply_circuit (init s) Utot;
  do qc_sig <- apply_operator qc_psi (ham s);
  foreach (pool s) (fun e st =>
    do r <- jw_transform srt (qubit_excitations s) (snd e);
    do g <- grad_element qc_sig qc_psi (op_mult_coeffs (snd r) (fst e));
    Ok ((fst st ++ [(fst e, fst r)])%list, (snd st ++ [g])%list)) ([], []).
