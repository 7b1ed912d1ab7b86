(** Model of src/qforte/qubit_operator.{h,cc} and src/qforte/qubit_op_pool.{h,cc} *)
From Coq Require Import Reals String Ascii List Arith Bool.
From Verif Require Import CBase Result Bits Spec GateModel ComputerModel CircuitModel.
Import ListNotations.
Local Open Scope string_scope.

(** A QubitOperator is its vector of terms (coefficient, circuit). *)
Definition qop := list (C * list gate).

(** qubit_operator.cc:26-34 *)
Definition op_add_term (o : qop) (c : C) (gs : list gate) : qop := (o ++ [(c, gs)])%list.
Definition op_add_op (o p : qop) : qop := (o ++ p)%list.
(** qubit_operator.cc:36-43 *)
Fixpoint zip_coeffs {A} (cs : list C) (o : list (C * A)) : list (C * A) :=
  match cs, o with
  | c :: cs', (_, gs) :: o' => (c, gs) :: zip_coeffs cs' o'
  | _, _ => o
  end.
Definition op_set_coeffs (o : qop) (cs : list C) : res qop :=
  if negb (Nat.eqb (length cs) (length o)) then Throw InvalidArg else Ok (zip_coeffs cs o).
(** qubit_operator.cc:45-49 *)
Definition op_mult_coeffs (o : qop) (c : C) : qop := map (fun t => ((fst t * c)%C, snd t)) o.

(** qubit_operator.cc:74-78.  (When a term is not a Pauli circuit the exception leaves
    the earlier terms rewritten; that intermediate object is not modelled.) *)
Fixpoint canonical_order (o : qop) : res qop :=
  match o with
  | [] => Ok []
  | (c, gs) :: r =>
      do p <- canonicalize_pauli_circuit gs;
      do r' <- canonical_order r;
      Ok (((c * fst p)%C, snd p) :: r')
  end.

(** std::map<Circuit, complex> keyed by Circuit's operator<, kept as the list of its
    (key, value) pairs in iteration order; qubit_operator.cc:82-89: find, then insert or
    add to the value found. *)
Fixpoint map_accumulate (k : list gate) (v : C) (m : list (list gate * C)) : list (list gate * C) :=
  match m with
  | [] => [(k, v)]
  | (k', v') :: r =>
      if circuit_ltb k k' then (k, v) :: m
      else if circuit_ltb k' k then (k', v') :: map_accumulate k v r
      else (k', (v' + v)%C) :: r
  end.
Definition unique_terms (o : qop) : list (list gate * C) :=
  fold_left (fun m t => map_accumulate (snd t) (fst t) m) o [].

(** qubit_operator.cc:80-103 *)
Definition op_simplify (combine_like_terms : bool) (o : qop) : res qop :=
  do o' <- canonical_order o;
  let m := unique_terms o' in
  Ok (map (fun kv => (snd kv, fst kv))
        (if combine_like_terms then filter (fun kv => Rltb 1e-12 (Cabs (snd kv))) m else m)).

(** qubit_operator.cc:105-128.  [rqo] is a reference; when it aliases the object itself
    pre_simplify also changes it, i.e. the caller then passes the simplified operator. *)
Definition raw_product (l r : qop) : qop :=
  flat_map (fun tl => map (fun tr => ((fst tl * fst tr)%C, (snd tl ++ snd tr)%list)) r) l.
Definition operator_product (l r : qop) (pre_simplify post_simplify : bool) : res qop :=
  do l <- (if pre_simplify then op_simplify true l else Ok l);
  let lr := raw_product l r in
  if post_simplify then op_simplify true lr else canonical_order lr.

(** The comparator of order_terms (qubit_operator.cc:53-71), including the final
    [a.size() < a.size()]. *)
Fixpoint first_diff {A} (neqb ltb : A -> A -> bool) (a b : list A) : option bool :=
  match a, b with
  | x :: a', y :: b' => if neqb x y then Some (ltb x y) else first_diff neqb ltb a' b'
  | _, _ => None
  end.
Definition term_less (a b : C * list gate) : bool :=
  let ta := map gtarget (snd a) in let tb := map gtarget (snd b) in
  match first_diff (fun x y => negb (Nat.eqb x y)) Nat.ltb ta tb with
  | Some r => r
  | None =>
      match first_diff (fun x y => negb (x =? y)) str_ltb (map glabel (snd a)) (map glabel (snd b)) with
      | Some r => r
      | None => Nat.ltb (length (snd a)) (length (snd a))
      end
  end.
(** qubit_operator.cc:51-72; [sort] stands for std::sort, whose result the standard only
    specifies when the comparator is a strict weak ordering. *)
Definition order_terms (sort : (C * list gate -> C * list gate -> bool) -> qop -> qop) (o : qop) : res qop :=
  do o' <- op_simplify true o; Ok (sort term_less o').

(** qubit_operator.cc:134-151 *)
Fixpoint ops_close (a b : qop) : bool :=
  match a, b with
  | (c, g) :: a', (d, h) :: b' =>
      if Rltb 1e-10 (Cabs (c - d)%C) then false
      else if negb (circuit_eqb g h) then false else ops_close a' b'
  | _, _ => true
  end.
Definition check_op_equivalence (sort : (C * list gate -> C * list gate -> bool) -> qop -> qop)
  (a b : qop) (reorder : bool) : res bool :=
  do a <- (if reorder then order_terms sort a else Ok a);
  do b <- (if reorder then order_terms sort b else Ok b);
  Ok (if negb (Nat.eqb (length a) (length b)) then false else ops_close a b).

(** qubit_operator.cc:178-184 *)
Definition op_num_qubits (o : qop) : nat := fold_left (fun m t => Nat.max m (num_qubits (snd t))) o 0%nat.

(** ---- QubitOpPool: vector of (coefficient, operator) ---- *)
Definition qpool := list (C * qop).
(** qubit_op_pool.cc:13-43 *)
Definition pool_add_term (p : qpool) (c : C) (o : qop) : qpool := (p ++ [(c, o)])%list.
Definition pool_set_coeffs (p : qpool) (cs : list C) : res qpool :=
  if negb (Nat.eqb (length cs) (length p)) then Throw InvalidArg else Ok (zip_coeffs cs p).
Fixpoint pool_set_op_coeffs (p : qpool) (cs : list C) : res qpool :=
  match p with
  | [] => Ok []
  | (c, o) :: r =>
      if negb (Nat.eqb (length cs) (length o)) then Throw InvalidArg
      else do o' <- op_set_coeffs o cs; do r' <- pool_set_op_coeffs r cs; Ok ((c, o') :: r')
  end.
Definition pool_set_terms (p new_terms : qpool) : qpool := (p ++ new_terms)%list.

(** sequential map with exceptions *)
Fixpoint mapM {A B} (f : A -> res B) (l : list A) : res (list B) :=
  match l with
  | [] => Ok []
  | x :: r => do y <- f x; do r' <- mapM f r; Ok (y :: r')
  end.

(** body shared by both branches of square (qubit_op_pool.cc:55-60, 69-73) *)
Definition square_pair (I J : C * qop) : res (C * qop) :=
  do o <- operator_product (op_add_op [] (snd I)) (snd J) false true;
  do o <- op_simplify true o;
  Ok ((Cconj (fst I) * fst J)%C, o).
(** index pairs (I, J) visited, qubit_op_pool.cc:53-54, 66-67 *)
Definition upper_pairs {A} : list A -> list (A * A) :=
  fix go l := match l with [] => [] | x :: r => (map (fun y => (x, y)) (x :: r) ++ go r)%list end.
Definition all_pairs {A} (l : list A) : list (A * A) := flat_map (fun x => map (fun y => (x, y)) l) l.
(** qubit_op_pool.cc:49-79 *)
Definition pool_square (p : qpool) (upper_triangle_only : bool) : res qpool :=
  mapM (fun IJ => square_pair (fst IJ) (snd IJ)) (if upper_triangle_only then upper_pairs p else all_pairs p).

(** qubit_op_pool.cc:81-86, 88-92, 94-104 *)
Definition join_op_from_right (p : qpool) (q : qop) : res qpool :=
  mapM (fun t => do o <- operator_product (snd t) q false true; do o <- op_simplify true o; Ok (fst t, o)) p.
Definition join_op_from_right_lazy (p : qpool) (q : qop) : res qpool :=
  mapM (fun t => do o <- operator_product (snd t) q false false; Ok (fst t, o)) p.
Definition join_op_from_left (p : qpool) (q : qop) : res qpool :=
  mapM (fun t => do o <- operator_product (op_add_op [] q) (snd t) false true; do o <- op_simplify true o; Ok (fst t, o)) p.
(** qubit_op_pool.cc:106-127 *)
Definition join_as_commutator (p : qpool) (q : qop) : res qpool :=
  mapM (fun t =>
    do HA <- operator_product (op_add_op [] q) (snd t) false true;
    do AH <- operator_product (op_add_op [] (snd t)) q false true;
    do o <- op_simplify true (op_add_op HA (op_mult_coeffs AH (- C1)%C));
    Ok (fst t, o)) p.

(** to_base4, qubit_op_pool.cc:199-206: the digits as a list of base-4 digits, most
    significant first (the strings only ever contain the characters '0'..'3') *)
Fixpoint to_base4 (fuel I : nat) : list nat :=
  match fuel with
  | O => []
  | S f => if Nat.ltb I 4 then [I] else (to_base4 f (I / 4) ++ [I mod 4])%list
  end.
(** pauli_idx_str, qubit_op_pool.cc:208-214: [nqb - I_str.length()] is computed in
    size_t; when the string is longer than nqb (only for nqb = 0) it wraps to 2^64 - 1 and
    the int counter of the loop overflows (undefined behaviour); modelled as UB_oob. *)
Definition pauli_idx_str (ds : list nat) (nqb : nat) : res (list nat) :=
  if Nat.ltb nqb (length ds) then Throw UB_oob
  else Ok (repeat 0%nat (nqb - length ds) ++ ds)%list.
Definition pauli_of_digit (d : nat) : string :=
  match d with 0 => "I" | 1 => "X" | 2 => "Y" | 3 => "Z" | _ => "" end.
(** the k-loop of qubit_op_pool.cc:141-145 *)
Fixpoint pauli_gates (k : nat) (ds : list nat) : res (list gate) :=
  match ds with
  | [] => Ok []
  | d :: r =>
      do here <- (if Nat.eqb d 0 then Ok [] else do g <- make_gate (pauli_of_digit d) k k 0; Ok [g]);
      do rest <- pauli_gates (S k) r; Ok (here ++ rest)%list
  end.
Definition count_y (ds : list nat) : nat := length (filter (Nat.eqb 2) ds).
(** fill_pool, qubit_op_pool.cc:129-181 (pow(4,nqb) fits an int for nqb <= 15) *)
Definition fill_pool (p : qpool) (pool_type : string) (nqb : nat) : res qpool :=
  if pool_type =? "complete_qubit" then
    foreach (seq 0 (4 ^ nqb)) (fun I p =>
      do ds <- pauli_idx_str (to_base4 (S I) I) nqb;
      if negb (Nat.eqb (length ds) nqb) then Throw InvalidArg
      else do gs <- pauli_gates 0 ds; Ok (pool_add_term p C1 [(C1, gs)])) p
  else if pool_type =? "cqoy" then
    foreach (seq 0 (4 ^ nqb)) (fun I p =>
      do ds <- pauli_idx_str (to_base4 (S I) I) nqb;
      if negb (Nat.eqb (length ds) nqb) then Throw InvalidArg
      else do gs <- pauli_gates 0 ds;
           Ok (if Nat.odd (count_y ds) then pool_add_term p C1 [(C1, gs)] else p)) p
  else Throw InvalidArg.
