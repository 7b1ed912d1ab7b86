(** Model of utils/spin_operators.py and utils/symmetry_analysis.py. *)
From Coq Require Import Reals String List Arith Bool NArith ZArith.
From Verif Require Import CBase Result Bits Spec SQSpec GateModel ComputerModel CircuitModel OperatorModel MeasureModel SQModel SQPoolModel PyModel GradModel.
Import ListNotations.
Local Open Scope C_scope.
Local Open Scope list_scope.

(** range(0, n, 2) *)
Definition range2 (n : nat) : list nat := filter Nat.even (seq 0 n).

(** spin_operators.py:67-73 (the SQOperator of total_spin_z) *)
Definition sq_spin_z (n_qubits : nat) : list fterm :=
  fold_left (fun o i => sq_add_term (sq_add_term o (mkC (1/2) 0) [i] [i]) (mkC (-1/2) 0) [(i + 1)%nat] [(i + 1)%nat]) (range2 n_qubits) [].
(** spin_operators.py:48-73.  jw_transform() is called with its default argument
    qubit_excitation = false (bindings.cc); it also simplifies the local SQOperator, which is
    then discarded. *)
Definition total_spin_z (srt : sorter) (n_qubits : nat) : res qop :=
  do r <- jw_transform srt false (sq_spin_z n_qubits); Ok (snd r).
(** spin_operators.py:76-98 *)
Definition sq_spin_lowering (n_qubits : nat) : list fterm :=
  fold_left (fun o i => sq_add_term o C1 [(i + 1)%nat] [i]) (range2 n_qubits) [].
Definition total_spin_lowering (srt : sorter) (n_qubits : nat) : res qop :=
  do r <- jw_transform srt false (sq_spin_lowering n_qubits); Ok (snd r).
(** spin_operators.py:101-123 *)
Definition sq_spin_raising (n_qubits : nat) : list fterm :=
  fold_left (fun o i => sq_add_term o C1 [i] [(i + 1)%nat]) (range2 n_qubits) [].
Definition total_spin_raising (srt : sorter) (n_qubits : nat) : res qop :=
  do r <- jw_transform srt false (sq_spin_raising n_qubits); Ok (snd r).
(** spin_operators.py:10-45 *)
Definition total_spin_squared (srt : sorter) (n_qubits : nat) : res qop :=
  do q_Sigma_z <- total_spin_z srt n_qubits;
  do q_Sigma_minus <- total_spin_lowering srt n_qubits;
  do q_Sigma_plus <- total_spin_raising srt n_qubits;
  let q_Sigma_squared := op_add_op [] q_Sigma_minus in
  do q_Sigma_squared <- operator_product q_Sigma_squared q_Sigma_plus true true;
  let q_Sigma_squared := op_add_op q_Sigma_squared q_Sigma_z in
  let q_Sigma_z_squared := op_add_op [] q_Sigma_z in
  do q_Sigma_z_squared <- operator_product q_Sigma_z_squared q_Sigma_z true true;
  let q_Sigma_squared := op_add_op q_Sigma_squared q_Sigma_z_squared in
  op_simplify true q_Sigma_squared.

(** symmetry_analysis.py:41-48; qf.gate("Z", qubit) *)
Definition number_operator (n_qubits : nat) : res qop :=
  foreach (seq 0 n_qubits) (fun qubit N =>
    do z <- make_gate "Z" qubit qubit 0; Ok (op_add_term N (mkC (-1/2) 0) [z]))
    (op_add_term [] (mkC (INR n_qubits / 2) 0) []).
(** symmetry_analysis.py:49-60, 64-73, 77-86: <A> and <A^2> - <A>^2, both of which must have
    imaginary part zero (ValueError otherwise).  The comparison with zero is exact, as for
    real numbers; rounding is not modelled. *)
Definition mean_and_variance (par : option schedule) (qc : computer) (A : qop) : res ((R * R) * computer) :=
  do A_sqrd <- operator_product (op_add_op [] A) A true true;
  do e <- direct_op_exp_val par qc A;
  do e2 <- direct_op_exp_val par (snd e) A_sqrd;
  let var := (fst e2 - fst e * fst e)%C in
  if Req_EM_T (Im (fst e)) 0 then if Req_EM_T (Im var) 0 then Ok ((Re (fst e), Re var), snd e2)
  else Throw (PyError "ValueError") else Throw (PyError "ValueError").

(** symmetry_analysis.py:99-107: the occupied alpha and beta orbitals of a determinant *)
Definition occ_alpha (n_qubits det : nat) : list nat := filter (fun i => bit det i) (range2 n_qubits).
Definition occ_beta (n_qubits det : nat) : list nat := filter (fun j => bit det j) (map (fun i => (i + 1)%nat) (range2 n_qubits)).
(** l[i] += w on a Python list *)
Definition py_add (l : list R) (i : nat) (w : R) : res (list R) :=
  do x <- py_get l i; py_set l i (x + w)%R.
(** symmetry_analysis.py:88-122.  The dictionary Sz_values_dictionary maps the value
    -n/4 + i/2 to i: its lookup is modelled with twice the values, as integers doubled once
    more ([4 Sz]), a missing key raises KeyError.  irrep is an index into weight_per_irrep.
    target_Sz is given as 2 Sz (the code compares floats which are multiples of 1/2). *)
Definition sz_index (n_qubits : nat) (two_sz : Z) : res nat :=
  match find (fun i => Z.eqb (- Z.of_nat n_qubits + 2 * Z.of_nat i) (2 * two_sz)) (seq 0 (n_qubits + 1)) with
  | Some i => Ok i
  | None => Throw (PyError "KeyError")
  end.
Record weights := mkWeights { w_target : R; w_N : list R; w_Sz : list R; w_irrep : list R }.
Definition det_weight (n_qubits : nat) (coeffs : list C) (orb_irreps_to_int : list N)
    (target_N : nat) (target_two_Sz : Z) (target_irrep : N) (det : nat) (w : weights) : res weights :=
  let a := occ_alpha n_qubits det in
  let b := occ_beta n_qubits det in
  do c <- py_get coeffs det;
  let weight := Re (c * Cconj c)%C in
  let particle_number := length (a ++ b) in
  let two_sz := (Z.of_nat (length a) - Z.of_nat (length b))%Z in
  do irrep <- find_irrep orb_irreps_to_int (a ++ b);
  let t := if andb (andb (Nat.eqb particle_number target_N) (Z.eqb two_sz target_two_Sz)) (N.eqb irrep target_irrep)
           then (w_target w + weight)%R else w_target w in
  do wn <- py_add (w_N w) particle_number weight;
  do k <- sz_index n_qubits two_sz;
  do ws <- py_add (w_Sz w) k weight;
  do wi <- py_add (w_irrep w) (N.to_nat irrep) weight;
  Ok (mkWeights t wn ws wi).
(** the numbers printed by symmetry_check *)
Record symmetry := mkSymmetry { sy_N : R * R; sy_Sz : R * R; sy_S2 : R * R; sy_weights : weights }.
(** symmetry_analysis.py:5-171.  The call in line 171 of irreps[target_irrep] only prints. *)
Definition symmetry_check (par : option schedule) (srt : sorter) (n_qubits : nat) (qc : computer) (n_irreps : nat)
    (orb_irreps_to_int : list N) (target_N : nat) (target_two_Sz : Z) (target_irrep : N) : res (symmetry * computer) :=
  do N <- number_operator n_qubits;
  do r1 <- mean_and_variance par qc N;
  do Sz <- total_spin_z srt n_qubits;
  do r2 <- mean_and_variance par (snd r1) Sz;
  do S_sqrd <- total_spin_squared srt n_qubits;
  do r3 <- mean_and_variance par (snd r2) S_sqrd;
  do w <- foreach (seq 0 (2 ^ n_qubits)) (det_weight n_qubits (coeff (snd r3)) orb_irreps_to_int target_N target_two_Sz target_irrep)
      (mkWeights 0 (repeat 0%R (n_qubits + 1)) (repeat 0%R (n_qubits + 1)) (repeat 0%R n_irreps));
  Ok (mkSymmetry (fst r1) (fst r2) (fst r3) w, snd r3).
