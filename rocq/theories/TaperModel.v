(** Model of src/qforte/utils/qubit_tapering.py.

    numpy uint8 arrays holding 0/1 are lists of rows of booleans (xor = np.bitwise_xor).
    Matrix products "mod 2" are computed with xor: uint8 arithmetic wraps modulo 256, which
    does not change the parity.  np.argsort is an oracle (its order on ties is unspecified);
    1/np.sqrt(2) is the exact real number. *)
From Coq Require Import Reals String List Arith Bool ZArith.
From Verif Require Import CBase Result Bits Spec GateModel ComputerModel CircuitModel OperatorModel.
Import ListNotations.
Local Open Scope nat_scope.
Local Open Scope string_scope.

(** np.bitwise_xor of two equally long vectors *)
Fixpoint vxor (a b : list bool) : list bool :=
  match a, b with
  | x :: a', y :: b' => xorb x y :: vxor a' b'
  | [], _ => b
  | _, [] => a
  end.
(** dot product modulo 2 *)
Fixpoint vdot (a b : list bool) : bool :=
  match a, b with x :: a', y :: b' => xorb (x && y) (vdot a' b') | _, _ => false end.
Definition row_of (M : list (list bool)) (i : nat) : list bool := nth i M [].
Definition memb (x : nat) (l : list nat) : bool := existsb (Nat.eqb x) l.

(** qubit_tapering.py:143-150, one row *)
Definition parity_row (n : nat) (gs : list gate) : list bool :=
  fold_left (fun r g =>
    let r := if (glabel g =? "Y") || (glabel g =? "Z") then list_set r (n - gtarget g - 1) true else r in
    if (glabel g =? "X") || (glabel g =? "Y") then list_set r (2 * n - gtarget g - 1) true else r)
    gs (repeat false (2 * n)).
(** qubit_tapering.py:117-152 *)
Definition parity_check_matrix (n : nat) (h : qop) : list (list bool) := map (fun t => parity_row n (snd t)) h.

(** qubit_tapering.py:178-180: the augmented matrix, kept as its list of columns *)
Definition unit_vec (w j : nat) : list bool := map (Nat.eqb j) (seq 0 w).
Definition aug_columns (n : nat) (pcm : list (list bool)) : list (list bool) :=
  map (fun j => (map (fun row => nth j row false) pcm ++ unit_vec (2 * n) j)%list) (seq 0 (2 * n)).
(** np.argwhere(M[row, idx:]) + idx *)
Definition nonzero_from (cols : list (list bool)) (row idx : nat) : list nat :=
  filter (fun c => nth row (row_of cols c) false) (seq idx (length cols - idx)).
Definition swap_cols (cols : list (list bool)) (i j : nat) : list (list bool) :=
  list_set (list_set cols i (row_of cols j)) j (row_of cols i).
(** M[k] = M[i] xor M[k] *)
Definition xor_into (i : nat) (M : list (list bool)) (k : nat) : list (list bool) :=
  list_set M k (vxor (row_of M i) (row_of M k)).
(** qubit_tapering.py:188-205, one iteration over the rows; state: (columns, idx) *)
Definition cef_row (st : list (list bool) * nat) (row : nat) : list (list bool) * nat :=
  match nonzero_from (fst st) row (snd st) with
  | [] => st
  | c :: rest => (fold_left (xor_into (snd st)) rest (swap_cols (fst st) c (snd st)), S (snd st))
  end.
(** qubit_tapering.py:155-219 *)
Definition kernel_basis (n m : nat) (pcm : list (list bool)) : list (list bool) :=
  let st := fold_left cef_row (seq 0 m) (aug_columns n pcm, 0) in
  map (skipn m) (filter (fun col => negb (existsb (fun b => b) (firstn m col))) (skipn (snd st) (fst st))).

(** v * B * w.T with B = [[0, 1], [1, 0]], qubit_tapering.py:240-251 *)
Definition bform (v w : list bool) : bool :=
  let h := Nat.div (length w) 2 in vdot v (skipn h w ++ firstn h w)%list.
Definition commutation (basis : list (list bool)) : list (list bool) :=
  map (fun v => map (bform v) basis) basis.
Definition entry (M : list (list bool)) (i j : nat) : bool := nth j (row_of M i) false.
(** np.argwhere of a row *)
Definition nonzeros (r : list bool) : list nat := filter (fun j => nth j r false) (seq 0 (length r)).

(** qubit_tapering.py:293-300: one vector of the inner loop over [pauli] *)
Definition sgs_update (com : list (list bool)) (processed : list nat) (p1 p2 : nat) (basis : list (list bool)) (p : nat) : list (list bool) :=
  if memb p processed then basis else
  let basis := if entry com p p2 then list_set basis p (vxor (row_of basis p) (row_of basis p1)) else basis in
  if entry com p p1 then list_set basis p (vxor (row_of basis p) (row_of basis p2)) else basis.
(** qubit_tapering.py:284-304, one iteration over pauli_1; state: (processed, (basis, commute)) *)
Definition sgs_state := (list nat * (list (list bool) * list (list bool)))%type.
Definition sgs_step (st : sgs_state) (p1 : nat) : sgs_state :=
  let processed := fst st in let basis := fst (snd st) in let com := snd (snd st) in
  if memb p1 processed then st else
  let processed := p1 :: processed in
  let anti := nonzeros (row_of com p1) in
  match anti with
  | [] => (processed, (basis, com))
  | _ =>
      match find (fun p2 => negb (memb p2 processed)) anti with
      | None => (processed, (basis, commutation basis))
      | Some p2 =>
          let processed := p2 :: processed in
          let basis := fold_left (sgs_update com processed p1 p2) (seq 0 (length basis)) basis in
          (processed, (basis, commutation basis))
      end
  end.
(** qubit_tapering.py:256-306 *)
Definition symplectic_gs (basis com : list (list bool)) : list (list bool) * list (list bool) :=
  snd (fold_left sgs_step (seq 0 (length basis)) ([], (basis, com))).

(** qubit_tapering.py:345-356: row of smallest positive weight (below 2n); state: (hmng, idx) *)
Definition weight (r : list bool) : nat := length (filter (fun b => b) r).
Definition lightest_row (n : nat) (com : list (list bool)) : nat :=
  snd (fold_left (fun (st : nat * nat) row =>
    let w := weight (row_of com row) in
    if (0 <? w)%nat && (w <? fst st)%nat then (w, row) else st) (seq 0 (length com)) (2 * n, 0)).
(** np.delete(M, indices, axis=0) *)
Definition delete_rows (M : list (list bool)) (idxs : list nat) : list (list bool) :=
  map (row_of M) (filter (fun i => negb (memb i idxs)) (seq 0 (length M))).
(** qubit_tapering.py:345-364 *)
Fixpoint abelian_loop (fuel n : nat) (basis com : list (list bool)) : res (list (list bool)) :=
  match fuel with
  | O => Throw OutOfFuel
  | S f =>
      if existsb (existsb (fun b => b)) com then
        let basis := delete_rows basis (nonzeros (row_of com (lightest_row n com))) in
        abelian_loop f n basis (commutation basis)
      else Ok basis
  end.
(** np.argwhere of a column *)
Definition column_nonzeros (M : list (list bool)) (c : nat) : list nat :=
  filter (fun i => nth c (row_of M i) false) (seq 0 (length M)).
(** qubit_tapering.py:378-394, the loop over columns; state: generators, lst, idx *)
Fixpoint reduce_columns (cols : list nat) (M : list (list bool)) (lst : list nat) (idx : nat) : list (list bool) :=
  match cols with
  | [] => M
  | c :: cols' =>
      let nz := column_nonzeros M c in
      let st :=
        match nz with
        | [r] => if memb r lst then (M, (lst, idx)) else (M, ((lst ++ [r])%list, S idx))
        | _ =>
            match find (fun r => negb (memb r lst)) nz with
            | None => (M, (lst, idx))
            | Some r =>
                (fold_left (fun M el => list_set M el (vxor (row_of M el) (row_of M r)))
                   (filter (fun el => negb (Nat.eqb el r)) nz) M, ((lst ++ [r])%list, S idx))
            end
        end in
      if (snd (snd st) =? length M)%nat then fst st
      else reduce_columns cols' (fst st) (fst (snd st)) (snd (snd st))
  end.
(** qubit_tapering.py:309-398 *)
Definition maximal_abelian (n : nat) (basis com : list (list bool)) (taper_from_least : bool) : res (list (list bool)) :=
  do g <- abelian_loop (S (length basis)) n basis com;
  Ok (reduce_columns (if taper_from_least then rev (seq n n) else seq n n) g [] 0).

(** qubit_tapering.py:64-80: binary vector to Pauli string *)
Definition pauli_letter (n : nat) (v : list bool) (j : nat) : option string :=
  match nth j v false, nth (j + n) v false with
  | true, true => Some "Y" | true, false => Some "X" | false, true => Some "Z" | false, false => None
  end.
Definition pauli_of_vec (n : nat) (v : list bool) : res (list gate) :=
  foreach (rev (seq 0 n)) (fun j gs =>
    match pauli_letter n v j with
    | None => Ok gs
    | Some l => do g <- make_gate l (n - j - 1) (n - j - 1) 0; Ok (gs ++ [g])%list
    end) [].
(** qubit_tapering.py:83-91 *)
Definition pair_sigma (n : nat) (taper_from_least : bool) (M : list (list bool)) : list nat :=
  fold_left (fun s i => match column_nonzeros M (n + i) with [r] => list_set s r (n - i - 1) | _ => s end)
    (if taper_from_least then seq 0 n else rev (seq 0 n)) (repeat 0 (length M)).
(** qubit_tapering.py:102-108 *)
Definition clifford (g : list gate) (q : nat) : res qop :=
  do x <- make_gate "X" q q 0; Ok [(RtoC (1 / sqrt 2), g); (RtoC (1 / sqrt 2), [x])].
Record symmetries := { sy_generators : list (list gate); sy_sigma : list nat; sy_unitaries : list qop; sy_unitary : qop }.
(** qubit_tapering.py:11-114 (debug=True: all four results); [argsort] is np.argsort *)
Definition find_Z2_symmetries (argsort : list nat -> list nat) (h : qop) (taper_from_least : bool) : res symmetries :=
  let n := op_num_qubits h in
  let m := length h in
  let basis := kernel_basis n m (parity_check_matrix n h) in
  let sg := symplectic_gs basis (commutation basis) in
  do M <- maximal_abelian n (fst sg) (snd sg) taper_from_least;
  do gens <- mapM (pauli_of_vec n) M;
  let sigma := pair_sigma n taper_from_least M in
  let order := rev (argsort sigma) in
  let sigma' := map (fun i => nth i sigma 0) order in
  let gens' := map (fun i => nth i gens []) order in
  do us <- mapM (fun gq => clifford (fst gq) (snd gq)) (combine gens' sigma');
  match us with
  | [] => Throw (PyError "IndexError")
  | u :: us' =>
      do v <- foreach us' (fun op acc => operator_product acc op true true) (op_add_op [] u);
      Ok {| sy_generators := gens'; sy_sigma := sigma'; sy_unitaries := us; sy_unitary := v |}
  end.

(** qubit_tapering.py:449-465, one gate; state: (coefficient, circuit) *)
Definition taper_gate (tapered : list nat) (sign : list Z) (g : gate) (st : C * list gate) : res (C * list gate) :=
  if memb (gtarget g) tapered then
    match filter (fun i => Nat.eqb (nth i tapered 0) (gtarget g)) (seq 0 (length tapered)) with
    | [i] => Ok ((fst st * RtoC (IZR (nth i sign 0%Z)))%C, snd st)
    | _ => Throw (PyError "ValueError")
    end
  else
    let t := gtarget g - length (filter (fun q => q <? gtarget g)%nat tapered) in
    do g' <- make_gate (glabel g) t t 0; Ok (fst st, (snd st ++ [g'])%list).
(** qubit_tapering.py:401-470; [tapered_qubits] is a numpy array, as find_Z2_symmetries
    returns it *)
Definition taper_operator (tapered : list nat) (sign : list Z) (o unitary : qop) : res qop :=
  if negb (forallb (fun s => (s =? 1)%Z || (s =? -1)%Z) sign) then Throw (PyError "ValueError")
  else if negb (length sign =? length tapered)%nat then Throw (PyError "ValueError")
  else
    do p <- operator_product o unitary true true;
    do q <- operator_product unitary p true true;
    do t <- mapM (fun ct => foreach (snd ct) (taper_gate tapered sign) (fst ct, [])) q;
    op_simplify true t.

(** del ref[i] *)
Definition del_at (l : list nat) (i : nat) : res (list nat) :=
  if (i <? length l)%nat then Ok (firstn i l ++ skipn (S i) l)%list else Throw (PyError "IndexError").
(** qubit_tapering.py:473-497 *)
Definition taper_reference (tapered : list nat) (ref : list nat) : res (list nat) :=
  foreach tapered (fun i l => del_at l i) ref.
