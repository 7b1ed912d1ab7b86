(** Model of the construction of the algorithm objects, src/qforte/abc/algorithm.py: the
    constructor of Algorithm (lines 58-148), get_initial_computer (476-480) and the penalty
    terms that the constructor of AnsatzAlgorithm adds to the Hamiltonian (lines 336-423).
    The arguments are typed, so that the isinstance tests are pattern matches and the tests of
    the keys and element types of the penalty dictionary always pass; QPE's refusal of frozen
    orbitals and printing are left out; the irrep bookkeeping is lines 425-452. *)
From Coq Require Import Reals String List Arith ZArith Bool.
From Verif Require Import CBase Result GateModel ComputerModel CircuitModel OperatorModel PyModel.
Import ListNotations.
Local Open Scope nat_scope.

Inductive reference_arg := NoReference | Occupations (l : list nat) | CircuitReference (U : list gate) | ComputerReference (c : computer).
(** what the constructor reads of the system *)
Record system := mkSystem { hamiltonian : qop; hf_reference : list nat }.
Record algorithm := mkAlgorithm {
  alg_ref : list nat; alg_refprep : list gate; alg_Uprep : list gate; alg_computer : option computer;
  alg_nqb : nat; alg_ham : qop; alg_Nl : nat }.

(** algorithm.py:73-118: self._ref, self._refprep, self._Uprep, self.computer *)
Definition prepare (initializable : bool) (sys : system) (reference : reference_arg) (state_prep_type : string) (fast : bool) : res (list nat * list gate * list gate * option computer) :=
  if String.eqb state_prep_type "occupation_list" then
    do ref <- (match reference with NoReference => Ok (hf_reference sys) | Occupations l => Ok l | _ => Throw (PyError "ValueError") end);
    do refprep <- build_refprep ref;
    Ok (ref, refprep, refprep, None)
  else if String.eqb state_prep_type "unitary_circ" then
    match reference with
    | CircuitReference U => do refprep <- build_refprep (hf_reference sys); Ok (hf_reference sys, refprep, U, None)
    | _ => Throw (PyError "ValueError")
    end
  else if String.eqb state_prep_type "computer" then
    match reference with
    | ComputerReference c =>
        if negb fast then Throw (PyError "ValueError")
        else if negb (Nat.eqb (nqubit c) (length (hf_reference sys))) then Throw (PyError "ValueError")
        else if negb initializable then Throw (PyError "ValueError")
        else do refprep <- build_refprep (hf_reference sys); Ok (hf_reference sys, refprep, [], Some c)
    | _ => Throw (PyError "ValueError")
    end
  else Throw (PyError "ValueError").
(** algorithm.py:58-148; [initializable] is self.computer_initializable *)
Definition algorithm_init (initializable : bool) (sys : system) (reference : reference_arg) (state_prep_type : string) (fast : bool) : res algorithm :=
  do p <- prepare initializable sys reference state_prep_type fast;
  let '(ref, refprep, Uprep, qc) := p in
  let nqb := length ref in
  if negb (Nat.eqb (op_num_qubits (hamiltonian sys)) nqb) then Throw (PyError "ValueError")
  else Ok (mkAlgorithm ref refprep Uprep qc nqb (hamiltonian sys) (length (hamiltonian sys))).
(** algorithm.py:476-480 *)
Definition get_initial_computer (a : algorithm) : computer := match alg_computer a with Some c => c | None => new_computer (alg_nqb a) end.

(** algorithm.py:408-415: scaling * (operator - eigenvalue)^2 *)
Definition penalty_qop (operator : qop) (eigenvalue scaling : R) : res qop :=
  let temp_qop := op_add_term (op_add_op [] operator) (RtoC (- eigenvalue)) [] in
  do p <- operator_product (op_add_op [] temp_qop) temp_qop true true;
  Ok (op_mult_coeffs p (RtoC scaling)).
(** algorithm.py:407-418, for lists of equal length *)
Definition penalties_qop (ps : list (qop * R * R)) : res qop :=
  foreach ps (fun p acc =>
    do q <- penalty_qop (fst (fst p)) (snd (fst p)) (snd p);
    op_simplify true (op_add_op acc q)) [].
(** algorithm.py:352-423: the object with the Hamiltonian and the number of its terms replaced;
    [pqe] for UCCNPQE and SPQE *)
Definition add_penalty (pqe : bool) (operators : list qop) (eigenvalues scaling_factors : list R) (a : algorithm) : res algorithm :=
  if pqe then Throw (PyError "ValueError")
  else if negb (Nat.eqb (length operators) (length eigenvalues) && Nat.eqb (length eigenvalues) (length scaling_factors)) then Throw (PyError "ValueError")
  else
    do pen <- penalties_qop (combine (combine operators eigenvalues) scaling_factors);
    do h <- op_simplify true (op_add_op (op_add_op [] (alg_ham a)) pen);
    Ok (mkAlgorithm (alg_ref a) (alg_refprep a) (alg_Uprep a) (alg_computer a) (alg_nqb a) h (length h)).

(** algorithm.py:425-452: self._irrep, None when the attribute is never set. [point_group] is
    the attribute of the system, if it has one; warnings are left out. `in irreps` is the
    membership in list(range(len(point_group[1]))). *)
Definition choose_irrep (point_group : option (string * list string)) (irrep : option Z) : res (option N) :=
  match point_group with
  | Some (_, l) =>
      let irreps := map Z.of_nat (seq 0 (length l)) in
      match irrep with
      | None => Ok (Some 0%N)
      | Some k => if existsb (Z.eqb k) irreps then Ok (Some (Z.to_N k)) else Throw (PyError "ValueError")
      end
  | None => Ok None
  end.
