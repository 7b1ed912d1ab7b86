(** Model of the operator, expectation value and measurement functions of
    src/qforte/computer.cc *)
From Coq Require Import Reals String List Arith Bool Permutation.
From Verif Require Import CBase Result Bits Spec GateModel ComputerModel CircuitModel OperatorModel SparseModel.
Import ListNotations.
Local Open Scope string_scope.

(** std::transform(result, coeff_, result, add_c) *)
Fixpoint vec_add (a b : list C) : res (list C) :=
  match a, b with
  | [], _ => Ok []
  | x :: a', y :: b' => do r <- vec_add a' b'; Ok ((x + y)%C :: r)
  | _ :: _, [] => Throw UB_oob
  end.
(** computer.cc:80-91 *)
Definition apply_operator (q : computer) (o : qop) : res computer :=
  let old := coeff q in
  do r <- foreach o (fun t s =>
      let '(q, result) := s in
      do q <- apply_circuit q (snd t);
      let q := apply_constant q (fst t) in
      do result <- vec_add result (coeff q);
      Ok (set_coeff q old, result)) (q, zeros (nbasis q));
  let '(q, result) := r in
  Ok (set_coeff q result).

(** computer.cc:837-848 *)
Definition direct_circ_exp_val (q : computer) (gs : list gate) : res (C * computer) :=
  let old := coeff q in
  do q <- apply_circuit q gs;
  do r <- inner_product old (coeff q) C0;
  Ok (r, set_coeff q old).

(** computer.cc:913-935 *)
Definition flip_all (I : nat) (l : list nat) : nat := fold_left flip l I.
Definition sgn (b : bool) : R := (1 - 2 * (if b then 1 else 0))%R.
Definition get_pauli_permuted_idx (I0 : nat) (xs ys zs : list nat) : nat * C :=
  let '(K, val) := fold_left (fun s y => let '(K, val) := s in
       (flip K y, (val * (Ci * RtoC (sgn (bit K y))))%C)) ys (flip_all I0 xs, C1) in
  let val := fold_left (fun val z => (val * RtoC (sgn (bit K z)))%C) zs val in
  (K, val).

(** computer.cc:850-911.  "#pragma omp parallel for reduction(+ : result)": [sched n] lists,
    for each thread in the order in which the private sums are combined, the iterations it
    executes; each private sum starts at 0.  nqubit_ = 0 makes block_size int(2^-1) = 0 and
    divides by it. *)
Definition schedule := nat -> list (list nat).
Definition legal_schedule (sched : schedule) : Prop := forall n, Permutation (concat (sched n)) (seq 0 n).
Definition block_inner (v : list C) (I1 len J : nat) : res C :=
  foreach (seq 0 len) (fun k acc => do x <- vget v (I1 + k); do y <- vget v (J + k); Ok (acc + Cconj x * y)%C) C0.
Definition direct_pauli_circ_exp_val (sched : schedule) (q : computer) (gs : list gate) : res C :=
  if (nqubit q =? 0)%nat then Throw UB_oob else
  do s <- foreach gs (fun g s =>
       let '(mn, xs, ys, zs) := s in
       let t := gtarget g in
       let mn := if (t <? mn)%nat then t else mn in
       if glabel g =? "Z" then Ok (mn, xs, ys, (zs ++ [t])%list)
       else if glabel g =? "X" then Ok (mn, (xs ++ [t])%list, ys, zs)
       else if glabel g =? "Y" then Ok (mn, xs, (ys ++ [t])%list, zs)
       else Throw RuntimeErr) ((nqubit q - 1)%nat, [], [], []);
  let '(mn, xs, ys, zs) := s in
  let block_size := (2 ^ mn)%nat in
  let n_blocks := (nbasis q / block_size)%nat in
  foreach (sched n_blocks) (fun iters result =>
    do part <- foreach iters (fun n result =>
       let I1 := (n * block_size)%nat in
       let '(J, val) := get_pauli_permuted_idx I1 xs ys zs in
       do x <- block_inner (coeff q) I1 block_size J;
       Ok (result + val * x)%C) C0;
    Ok (result + part)%C) C0.

(** computer.cc:753-771; [par] is [None] when parallelism_enabled is false (the library was
    compiled without OpenMP), else [Some schedule] *)
Definition direct_op_exp_val (par : option schedule) (q : computer) (o : qop) : res (C * computer) :=
  match par with
  | Some sched =>
    do r <- foreach o (fun t result => do x <- direct_pauli_circ_exp_val sched q (snd t); Ok (result + fst t * x)%C) C0;
    Ok (r, q)
  | None =>
    let old := coeff q in
    do q <- apply_operator q o;
    do r <- inner_product old (coeff q) C0;
    Ok (r, set_coeff q old)
  end.
(** computer.cc:773-782 *)
Definition direct_oppl_exp_val (par : option schedule) (q : computer) (p : qpool) : res (list C * computer) :=
  foreach p (fun t s => let '(results, q) := s in
     do r <- direct_op_exp_val par q (snd t); Ok ((results ++ [(fst r * fst t)%C])%list, snd r)) ([], q).
(** computer.cc:784-806 (both branches compute direct_op_exp_val's value term by term) *)
Definition direct_idxd_oppl_exp_val (par : option schedule) (q : computer) (p : qpool) (idxs : list nat) : res (list C * computer) :=
  foreach idxs (fun idx s => let '(results, q) := s in
     do t <- vget p idx;
     do r <- direct_op_exp_val par q (snd t); Ok ((results ++ [(fst r * fst t)%C])%list, snd r)) ([], q).
(** computer.cc:808-835 *)
Definition direct_oppl_exp_val_w_mults (par : option schedule) (q : computer) (p : qpool) (mults : list C) : res (list C * computer) :=
  foreach p (fun t s => let '(results, q) := s in
     do r <- foreach (seq 0 (length (snd t))) (fun l s => let '(result, q) := s in
               do ml <- vget mults l; do tl <- vget (snd t) l;
               let val := (ml * fst t * fst tl)%C in
               do x <- match par with
                       | Some sched => do y <- direct_pauli_circ_exp_val sched q (snd tl); Ok (y, q)
                       | None => direct_circ_exp_val q (snd tl) end;
               Ok ((result + val * fst x)%C, snd x)) (C0, q);
     Ok ((results ++ [fst r])%list, snd r)) ([], q).

(** computer.cc:937-954 *)
Definition direct_gate_exp_val (q : computer) (g : gate) : res (C * computer) :=
  let coeff_temp := coeff q in
  do q <- (if (gnqubits g =? 1)%nat then apply_1qubit_gate q g else Ok q);
  do q <- (if (gnqubits g =? 2)%nat then apply_2qubit_gate q g else Ok q);
  do r <- inner_product coeff_temp (new_coeff q) C0;
  Ok (r, mkComputer (nqubit q) (coeff q) (map (fun _ => C0) (new_coeff q)) (none_ops q) (ntwo_ops q)).

(** computer.cc:975-981 *)
Definition dot (q1 q2 : computer) : res C := inner_product (coeff q1) (coeff q2) C0.

(** QubitBasis_rotator of computer.cc:147-165, 226-243, 283-300 *)
Fixpoint basis_rotator (gs : list gate) : res (list gate) :=
  match gs with
  | [] => Ok []
  | g :: r =>
      let t := gtarget g in
      do here <- (if glabel g =? "Z" then do x <- make_gate "I" t t 0; Ok [x]
                  else if glabel g =? "X" then do x <- make_gate "H" t t 0; Ok [x]
                  else if glabel g =? "Y" then do x <- make_gate "Rx" t t (PI / 2); Ok [x]
                  else Ok []);
      do rest <- basis_rotator r; Ok (here ++ rest)%list
  end.
(** computer.cc:186-188: product of the signs of the measured bits *)
Definition outcome_value (gs : list gate) (k : nat) : R :=
  fold_left (fun value g => (value * (1 - 2 * INR (b2n (bit k (gtarget g)))))%R) gs 1%R.

(** computer.cc:275-315 *)
Definition perfect_measure_circuit (q : computer) (gs : list gate) : res (R * computer) :=
  let old := coeff q in
  do rot <- basis_rotator gs;
  do q <- apply_circuit q rot;
  do sum <- foreach (basis q) (fun k sum =>
     do x <- vget (coeff q) k;
     Ok (sum + Re (RtoC (outcome_value gs k) * x * Cconj x)%C)%R) 0%R;
  Ok (sum, set_coeff q old).

(** std::discrete_distribution<> draws: an oracle.  [legal probs l] is the contract of
    the standard: every drawn index has positive probability. *)
Definition probabilities (q : computer) : list R := map (fun x => Re (Cconj x * x)%C) (coeff q).
Definition legal (probs : list R) (draws : list nat) : Prop :=
  Forall (fun k => (k < length probs)%nat /\ (0 < nth k probs 0)%R) draws.

(** computer.cc:135-191: [draws] are the n_measurements values of dd(gen) *)
Definition measure_circuit (q : computer) (gs : list gate) (draws : list nat) : res (list R * computer) :=
  let old := coeff q in
  do rot <- basis_rotator gs;
  do q <- apply_circuit q rot;
  Ok (map (outcome_value gs) draws, set_coeff q old).
(** computer.cc:193-217 *)
Definition measure_z_readouts_fast (q : computer) (na nb : nat) (draws : list nat) : list (list nat) :=
  map (fun k => map (fun l => b2n (bit k l)) (seq na (nb + 1 - na))) draws.
(** computer.cc:219-273 *)
Definition measure_readouts (q : computer) (gs : list gate) (draws : list nat) : res (list (list nat) * computer) :=
  let old := coeff q in
  do rot <- basis_rotator gs;
  do q <- apply_circuit q rot;
  Ok (map (fun k => map (fun g => b2n (bit k (gtarget g))) gs) draws, set_coeff q old).
(** the probabilities the draws of measure_circuit / measure_readouts are made from *)
Definition rotated_probabilities (q : computer) (gs : list gate) : res (list R) :=
  do rot <- basis_rotator gs;
  do q <- apply_circuit q rot;
  Ok (probabilities q).
