(** Model of the projective quantum eigensolver: fill_excited_dets, get_residual_vector,
    initialize_ansatz (src/qforte/ucc/uccnpqe.py:193-292) and build_orb_energies,
    get_res_over_mpdenom (src/qforte/abc/ansatz.py:84-154).  The algorithm object is [ucc] of
    GradModel; [ref] is self._ref, [nqb] = len(self._ref), [refprep] self._refprep.
    np.random.normal is an oracle: [normal i mu sigma] is the i-th draw of the call.
    numpy's division by a zero denominator (inf or nan with a warning) is not modelled: the
    quotient by zero of Coq's total division stands for it.  Printing is left out. *)
From Coq Require Import Reals String List Arith NArith Bool.
From Verif Require Import CBase Result Spec GateModel ComputerModel LibProofs CircuitModel OperatorModel MeasureModel SQSpec SQModel SQPoolModel PyModel AnsatzModel GradModel.
Import ListNotations.
Local Open Scope nat_scope.

(** uccnpqe.py:201-207 and ansatz.py:137-143: (creators, annihilators) of the first term, with
    the two exchanged unless the last annihilator of the term is an occupied orbital *)
Definition excitation_part (ref : list nat) (o : list fterm) : res (list nat * list nat) :=
  do t <- py_get o 0;
  do x <- (match rev (fann t) with x :: _ => Ok x | [] => Throw (PyError "IndexError") end);
  do occ <- py_get ref x;
  Ok (if Nat.eqb occ 0 then (fann t, fcre t) else (fcre t, fann t)).
(** uccnpqe.py:220-225 (val = 0) and 228-233 (val = 1): (determinant, destroyed) *)
Fixpoint set_orbitals (val : bool) (l : list nat) (det : N) : res (N * bool) :=
  match l with
  | [] => Ok (det, false)
  | p :: r =>
      do b <- qb_get_bit det p;
      if Bool.eqb b val then Ok (det, true)
      else do det' <- qb_set_bit det p val; set_orbitals val r det'
  end.
(** uccnpqe.py:213-241.  QubitBasis(n) is the basis state with the number n, all of whose bits
    are overwritten in the first loop. *)
Definition excited_det (ref : list nat) (cre ann : list nat) : res nat :=
  do det <- foreach (combine (seq 0 (length ref)) ref) (fun ko det => qb_set_bit det (fst ko) (negb (Nat.eqb (snd ko) 0))) (N.of_nat (length ref));
  do d1 <- set_orbitals false (rev ann) det;
  do d2 <- set_orbitals true (rev cre) (fst d1);
  if snd d1 || snd d2 then Throw (PyError "ValueError") else Ok (N.to_nat (fst d2)).
(** one pass of the loop of uccnpqe.py:195-248 for the operator o: the operator after
    jw_transform has simplified it (the iterator yields references), and (I, phase_factor) *)
Definition excited_entry (srt : sorter) (qe : bool) (ref : list nat) (refprep : list gate) (o : list fterm) : res (list fterm * (nat * C)) :=
  do ca <- excitation_part ref o;
  do idx <- excited_det ref (fst ca) (snd ca);
  do qc <- apply_circuit (new_computer (length ref)) refprep;
  do q <- jw_transform srt qe o;
  do qc <- apply_operator qc (snd q);
  do phase_factor <- py_get (coeff qc) idx;
  Ok (fst q, (idx, phase_factor)).
(** uccnpqe.py:193-248: the pool after the call and self._excited_dets *)
Definition fill_excited_dets (srt : sorter) (qe : bool) (ref : list nat) (refprep : list gate) (pl : sqpool) (dets : list (nat * C)) : res (sqpool * list (nat * C)) :=
  foreach pl (fun e st =>
    do r <- excited_entry srt qe ref refprep (snd e);
    Ok ((fst st ++ [(fst e, fst r)])%list, (snd st ++ [snd r])%list)) ([], dets).
(** the loop of uccnpqe.py:277-288 *)
Definition residual_elements (noise_factor : R) (normal : nat -> R -> R -> R) (coeffs : list C) (dets : list (nat * C)) : res (list C) :=
  foreach dets (fun d rs =>
    do c <- py_get coeffs (fst d);
    let res_m := (c * snd d)%C in
    if Req_EM_T (Im res_m) 0 then
      let res_m := if Rltb 1e-12 noise_factor then RtoC (normal (length rs) (Re res_m) noise_factor) else res_m in
      Ok (rs ++ [res_m])%list
    else Throw (PyError "ValueError")) [].
(** uccnpqe.py:250-294: the residuals and self._res_vec_norm (np.linalg.norm).  The counters are left out. *)
Definition norm2 (l : list C) : R := sqrt (fold_right Rplus 0%R (map (fun c => Re c * Re c + Im c * Im c)%R l)).
Definition get_residual_vector (srt : sorter) (sort : term_sorter) (s : ucc) (nqb : nat) (dets : list (nat * C)) (noise_factor : R) (normal : nat -> R -> R -> R) (trial_amps : list C) : res (list C * R) :=
  if String.eqb (pool_type s) "sa_SD" then Throw (PyError "ValueError") else
  do U <- ansatz_circuit srt sort (pool_type s) (compact s) (qubit_excitations s) (trotter_number s) (pool s) (tops s) trial_amps;
  do qc <- apply_circuit (new_computer nqb) (Uprep s);
  do qc <- apply_circuit qc U;
  do qc <- apply_operator qc (ham s);
  do qc <- apply_circuit qc (circuit_adjoint U);
  do rs <- residual_elements noise_factor normal (coeff qc) dets;
  Ok (rs, norm2 rs).
(** uccnpqe.py:296-302 *)
Definition initialize_ansatz (pl : sqpool) (tops : list nat) (tamps : list C) : list nat * list C :=
  ((tops ++ seq 0 (length pl))%list, (tamps ++ repeat C0 (length pl))%list).

(** ansatz.py:91-98, system with hf_orbital_energies *)
Definition orb_energies_hf (hf : list C) : list C := flat_map (fun j => [j; j]) hf.
(** ansatz.py:99-121 *)
Definition orb_energies_computed (par : option schedule) (ref : list nat) (refprep : list gate) (h : qop) : res (list C) :=
  let nqb := length ref in
  do qc <- apply_circuit (new_computer nqb) refprep;
  do E0 <- direct_op_exp_val par qc h;
  foreach (seq 0 nqb) (fun i orb_e =>
    do qc <- apply_circuit (new_computer nqb) refprep;
    do x <- py_gate2 "X" i i;
    do qc <- apply_gate qc x;
    do Ei <- direct_op_exp_val par qc h;
    let ei := if i <? list_sum ref then (fst E0 - fst Ei)%C else (fst Ei - fst E0)%C in
    Ok (orb_e ++ [ei])%list) [].
(** division of complex numbers *)
Definition cdiv (a b : C) : C := let d := (Re b * Re b + Im b * Im b)%R in (a * mkC (Re b / d) (- Im b / d))%C.
(** sum(self._orb_e[x] for x in l) *)
Definition energy_sum (orb_e : list C) (l : list nat) : res C := foreach l (fun x acc => do e <- py_get orb_e x; Ok (acc + e)%C) C0.
(** ansatz.py:123-154 *)
Definition get_res_over_mpdenom (ref : list nat) (orb_e : list C) (pl : sqpool) (tops : list nat) (residuals : list C) : res (list C) :=
  foreach (combine (seq 0 (length tops)) tops) (fun mm out =>
    do e <- pool_item pl (snd mm);
    do ca <- excitation_part ref (snd e);
    do ea <- energy_sum orb_e (snd ca);
    do ec <- energy_sum orb_e (fst ca);
    let denom := (ea - ec)%C in
    do r <- py_get residuals (fst mm);
    Ok (out ++ [cdiv r denom])%list) [].
