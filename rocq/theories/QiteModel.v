(** Model of ite/qite.py (QITE, with QLanczos).  scipy.linalg.lstsq is an oracle: [lstsq k S b]
    is the vector it returns for the k x k matrix S and the right-hand side b (the empty vector
    for k = 0).  Printing, the summary files and verify_required_attributes are left out;
    floating point numbers are exact reals. *)
From Coq Require Import Reals String List Arith ZArith Bool.
From Verif Require Import CBase Result Bits Spec GateModel ComputerModel CircuitModel OperatorModel MeasureModel SQModel SQPoolModel GsdModel AnsatzModel PyModel EigModel GradModel QkModel.
Import ListNotations.
Local Open Scope R_scope.

Definition lstsq_oracle := nat -> (nat -> nat -> R) -> list R -> list R.
(** what a QITE object reads: constructor arguments and arguments of run (qite.py:124-134);
    qi_par as in MeasureModel.direct_op_exp_val *)
Record qite_options := mkQiteOptions {
  qi_nqb : nat; qi_Uprep : list gate; qi_ham : qop; qi_ref : list Z; qi_trotter : nat; qi_par : option schedule;
  qi_beta : R; qi_db : R; qi_type : string; qi_sparse : bool; qi_bthr : R; qi_xthr : R; qi_lanczos : bool; qi_gap : nat }.
(** _qc, _Ekb, _Uqite, _total_phase, _n_classical_params, _n_cnot, _n_pauli_trm_measures,
    _lanczos_vecs, _Hlanczos_vecs *)
Record qite_state := mkQiteState {
  qs_qc : computer; qs_Ekb : list R; qs_U : list gate; qs_phase : C; qs_params : nat; qs_cnot : nat; qs_meas : nat;
  qs_vecs : list (list C); qs_Hvecs : list (list C) }.

(** qite.py:217-258 (build_expansion_pool) *)
Definition filter_odd_Y (terms : qop) : res qpool :=
  foreach terms (fun t p =>
    do r <- foreach (snd t) (fun g s =>
      do g' <- py_gate2 (glabel g) (gtarget g) (gcontrol g);
      Ok ((fst s ++ [g'])%list, if String.eqb (glabel g) "Y" then (snd s + 1)%nat else snd s)) ([], 0%nat);
    Ok (if Nat.eqb (snd r mod 2) 1 then pool_add_term p C1 [(C1, fst r)] else p)) [].
Definition build_expansion_pool (srt : sorter) (sort : term_sorter) (o : qite_options) : res qpool :=
  if String.eqb (qi_type o) "complete_qubit" then
    if Nat.ltb 6 (qi_nqb o) then Throw (PyError "ValueError") else fill_pool [] "complete_qubit" (qi_nqb o)
  else if String.eqb (qi_type o) "cqoy" then fill_pool [] "cqoy" (qi_nqb o)
  else if existsb (String.eqb (qi_type o)) ["SD"; "GSD"; "SDT"; "SDTQ"; "SDTQP"; "SDTQPH"]%string then
    do sp <- set_orb_spaces (qi_ref o) [];
    do P <- (if String.eqb (qi_type o) "GSD" then fill_pool_gsd srt sp [] else fill_pool_excitations srt sp (qi_type o) []);
    do q <- get_qubit_operator srt sort "commuting_grp_lex" false false P;
    filter_odd_Y (snd q)
  else Throw (PyError "ValueError").

(** a Computer(nqb) with the amplitudes v: qite.py:266-267, 300-301, 325-326 *)
Definition computer_with (o : qite_options) (v : list C) : computer := set_coeff_vec (new_computer (qi_nqb o)) v.
(** qite.py:260-283 (build_S, idx = all indices) and 296-313 (the same loop in
    build_sparse_S_b, idx = idx_sparse): the matrix before np.real *)
Definition overlap_loop (o : qite_options) (pool : qpool) (qc : computer) (idx : list nat) : res mat :=
  do r <- foreach (seq 0 (length idx)) (fun i st =>
    let Sm := mset (fst (fst st)) i i C1 in
    do Ii <- py_get idx i;
    do op <- py_get pool Ii;
    do Ipsi <- apply_operator (snd st) (snd op);
    let CI := (snd (fst st) ++ [coeff Ipsi])%list in
    do Sm <- foreach (seq 0 i) (fun j Sm =>
      do a <- py_get CI i;
      do b <- py_get CI j;
      do v <- vdot a b;
      Ok (mset (mset Sm i j v) j i v)) Sm;
    Ok (Sm, CI, set_coeff_vec Ipsi (coeff qc))) (mzero, [], computer_with o (coeff qc));
  Ok (fst (fst r)).
Definition mreal (Sm : mat) : nat -> nat -> R := fun i j => Re (Sm i j).
(** qite.py:315-338 (build_b).  [None] stands for the vector of nan that numpy computes when
    1 - 2 db E is negative (np.sqrt returns nan); a zero denominator is not modelled *)
Definition build_b (o : qite_options) (pool : qpool) (st : qite_state) : res (option (list R)) :=
  let qc := qs_qc st in
  let d := 1 - 2 * qi_db o * last (qs_Ekb st) 0 in
  if Rltb d 0 then Ok None
  else if Rltb 0 d then
    let prefactor := (mkC 0 (-1) * RtoC (/ sqrt d))%C in
    do Hpsi <- apply_operator (computer_with o (coeff qc)) (qi_ham o);
    let C_Hpsi := coeff Hpsi in
    do r <- foreach pool (fun t s =>
      do Hp <- apply_operator (snd s) (snd t);
      do e <- vdot (coeff qc) (coeff Hp);
      Ok ((fst s ++ [Re (prefactor * fst t * e)%C])%list, set_coeff_vec Hp C_Hpsi)) ([], Hpsi);
    Ok (Some (fst r))
  else Throw (PyError "not modelled: division by zero").
(** qite.py:285-294: the indices of the entries above the threshold, and these entries *)
Definition sparse_b (o : qite_options) (b : list R) : list nat * list R :=
  fold_left (fun a ib => if Rltb (qi_bthr o) (Rabs (snd ib)) then ((fst a ++ [fst ib])%list, (snd a ++ [snd ib])%list) else a)
    (combine (seq 0 (length b)) b) ([], []).
(** qite.py:357-372: the operator A and the number of its terms; idx = sp_idxs, or all indices *)
Definition build_A (o : qite_options) (pool : qpool) (idx : list nat) (x : list R) : res (qop * nat) :=
  foreach (combine (seq 0 (length idx)) idx) (fun Is a =>
    do xv <- py_get x (fst Is);
    if Rltb (qi_xthr o) (Rabs xv) then
      do op <- py_get pool (snd Is);
      do t <- py_get (snd op) 0;
      Ok ((fst a ++ [((mkC 0 (-1) * RtoC (qi_db o) * RtoC xv)%C, snd t)])%list, (snd a + 1)%nat)
    else Ok a) ([], 0%nat).
(** int(n (n + 1) * 0.5) *)
Definition triangle (n : nat) : nat := (n * (n + 1) / 2)%nat.
(** qite.py:340-390 (do_qite_step) *)
Definition do_qite_step (lstsq : lstsq_oracle) (o : qite_options) (pool : qpool) (st : qite_state) : res qite_state :=
  do btot <- build_b o pool st;
  let NI := length pool in
  let meas := (qs_meas st + length (qi_ham o) * NI)%nat in
  do sys <- (if qi_sparse o then
      let ib := match btot with Some b => sparse_b o b | None => ([], []) end in
      do Sm <- overlap_loop o pool (qs_qc st) (fst ib);
      Ok (fst ib, Sm, snd ib)
    else
      do Sm <- overlap_loop o pool (qs_qc st) (seq 0 NI);
      match btot with Some b => Ok (seq 0 NI, Sm, b) | None => Throw (PyError "ValueError") end);
  let idx := fst (fst sys) in
  let x := lstsq (length idx) (mreal (snd (fst sys))) (snd sys) in
  do A <- build_A o pool idx x;
  do e <- trotterize (fst A) C1 (qi_trotter o) 1;
  do qc <- apply_circuit (qs_qc st) (fst e);
  do v <- direct_op_exp_val (qi_par o) qc (qi_ham o);
  Ok (mkQiteState (snd v) (qs_Ekb st ++ [Re (fst v)]) (qs_U st ++ fst e) (qs_phase st * snd e)%C (qs_params st + snd A)
       (qs_cnot st + get_num_cnots (fst e)) (meas + triangle (length idx)) (qs_vecs st) (qs_Hvecs st)).
(** qite.py:399-406, 418-426: a Lanczos vector and its image under the Hamiltonian *)
Definition add_lanczos (o : qite_options) (st : qite_state) : res qite_state :=
  do Hq <- apply_operator (computer_with o (coeff (qs_qc st))) (qi_ham o);
  Ok (mkQiteState (qs_qc st) (qs_Ekb st) (qs_U st) (qs_phase st) (qs_params st) (qs_cnot st) (qs_meas st)
       (qs_vecs st ++ [coeff (qs_qc st)]) (qs_Hvecs st ++ [coeff Hq])).
(** qite.py:136: self._nbeta - 1 = int(beta / db), the number of passes of the loop *)
Definition n_steps (o : qite_options) : res nat :=
  if Req_EM_T (qi_db o) 0 then Throw (PyError "ZeroDivisionError") else Ok (Z.to_nat (Int_part (qi_beta o / qi_db o))).
(** qite.py:415-426: one pass of the loop *)
Definition qite_pass (lstsq : lstsq_oracle) (o : qite_options) (pool : qpool) (kb : nat) (st : qite_state) : res qite_state :=
  do st <- do_qite_step lstsq o pool st;
  if qi_lanczos o then
    if Nat.eqb (qi_gap o) 0 then Throw (PyError "ZeroDivisionError")
    else if Nat.eqb (kb mod qi_gap o) 0 then add_lanczos o st else Ok st
  else Ok st.
(** qite.py:392-436 (evolve) *)
Definition evolve_qite (lstsq : lstsq_oracle) (o : qite_options) (pool : qpool) (n : nat) (E0 : R) : res qite_state :=
  do qc <- apply_circuit (new_computer (qi_nqb o)) (qi_Uprep o);
  let st := mkQiteState qc [E0] (qi_Uprep o) C1 0 (get_num_cnots (qi_Uprep o)) 0 [] [] in
  do st <- (if qi_lanczos o then add_lanczos o st else Ok st);
  foreach (seq 1 n) (qite_pass lstsq o pool) st.
(** qite.py:446-500 (do_qlanczos): h_mat, s_mat and _Egs_lanczos; the loop body runs at least
    once because there is always a first Lanczos vector *)
Definition do_qlanczos (eig : eig_oracle) (st : qite_state) : res (mat * mat * C) :=
  foreach (seq 0 (length (qs_vecs st))) (fun m hse =>
    do hs <- foreach (seq 0 (m + 1)) (fun n hs =>
      do vm <- py_get (qs_vecs st) m;
      do Hvn <- py_get (qs_Hvecs st) n;
      do vn <- py_get (qs_vecs st) n;
      do hv <- vdot vm Hvn;
      let h := mset (fst hs) m n hv in
      let h := mset h n m (Cconj (h m n)) in
      do sv <- vdot vm vn;
      let s := mset (snd hs) m n sv in
      let s := mset s n m (Cconj (s m n)) in
      Ok (h, s)) (fst hse);
    do e <- canonical_geig_solve eig (m + 1) (snd hs) (fst hs) true;
    do e0 <- py_get (fst e) 0;
    Ok (hs, e0)) (mzero, mzero, C0).
(** qite.py:124-176 (run): the final state of the object and, with do_lanczos, the QLanczos results *)
Definition qite_run (srt : sorter) (sort : term_sorter) (lstsq : lstsq_oracle) (eig : eig_oracle) (o : qite_options) : res (qite_state * option (mat * mat * C)) :=
  do n <- n_steps o;
  do qc_ref <- apply_circuit (new_computer (qi_nqb o)) (qi_Uprep o);
  do v <- direct_op_exp_val (qi_par o) qc_ref (qi_ham o);
  do pool <- build_expansion_pool srt sort o;
  do st <- evolve_qite lstsq o pool n (Re (fst v));
  if qi_lanczos o then do l <- do_qlanczos eig st; Ok (st, Some l) else Ok (st, None).
(** qite.py:434: _Egs *)
Definition qite_Egs (st : qite_state) : R := last (qs_Ekb st) 0.
(** qite.py:178-179 *)
Definition qite_run_realistic : res unit := Throw (PyError "NotImplementedError").
