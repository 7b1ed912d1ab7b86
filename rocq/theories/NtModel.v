(** Model of utils/exp_ops.py and qkd/nt_srqk.py (NTSRQK).  scipy's expm_multiply is an oracle:
    [expm d A v t] stands for the vector exp(t A) v, A being d x d. *)
From Coq Require Import Reals String List Arith Bool.
From Verif Require Import CBase Result Bits Spec GateModel ComputerModel CircuitModel OperatorModel MeasureModel SparseModel PyModel EigModel DiisModel GradModel QkModel.
Import ListNotations.
Local Open Scope C_scope.

Definition expm_oracle := nat -> mat -> list C -> R -> list C.
(** exp_ops.py:12-27 (get_scipy_csc_from_op): the dimension and the entries; an entry that the
    sparse matrix does not store is zero in the csc matrix *)
Definition get_scipy_csc_from_op (Hop : qop) (factor : C) : res (nat * mat) :=
  let nqubits := op_num_qubits Hop in
  do sp_mat <- op_sparse nqubits Hop;
  Ok ((2 ^ nqubits)%nat, fun I J : nat => factor * sget sp_mat I J).
(** exp_ops.py:30-33 (apply_time_evolution_op).  expm_multiply(A, B, start, stop, num, endpoint=True)
    raises ValueError when the shapes do not match or when num < 2, and otherwise evaluates
    exp(t A) B at the points of numpy.linspace(0, stop, num). *)
Definition apply_time_evolution_op (expm : expm_oracle) (qc : computer) (Hcsc : nat * mat) (tn : R) (nstates : nat) : res (list (list C)) :=
  if negb (Nat.eqb (length (coeff qc)) (fst Hcsc)) then Throw (PyError "ValueError")
  else if Nat.ltb nstates 2 then Throw (PyError "ValueError")
  else Ok (map (fun m => expm (fst Hcsc) (snd Hcsc) (coeff qc) (INR m * (tn / INR (nstates - 1)))%R) (seq 0 nstates)).
(** nt_srqk.py:150-152: the m-th state *)
Definition nt_prep (o : qk_options) (psi_t_vecs : list (list C)) (m : nat) : res computer :=
  do v <- py_get psi_t_vecs m;
  Ok (set_coeff_vec (new_computer (qk_nqb o)) v).
(** nt_srqk.py:44-68 (run) and 103-207 (build_qk_mats); the loop over m is [qk_step] of QkModel
    (nt_srqk.py:154-176) *)
Definition ntsrqk_run (eig : eig_oracle) (expm : expm_oracle) (fast : bool) (o : qk_options) : res qk_result :=
  if negb fast then Throw (PyError "ValueError")
  else
    do Hsp <- get_scipy_csc_from_op (qk_ham o) (mkC 0 (-1));
    do QC <- apply_circuit (new_computer (qk_nqb o)) (qk_Uprep o);
    do psi_t_vecs <- apply_time_evolution_op expm QC Hsp (qk_dt o) (qk_s o + 1);
    common_run eig o (nt_prep o psi_t_vecs).
