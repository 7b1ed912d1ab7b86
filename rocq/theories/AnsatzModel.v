(** Model of SQOpPool::get_qubit_operator, get_qubit_op_pool and set_coeffs
    (src/qforte/sq_op_pool.cc:13-30, 72-109) and of UCC.ansatz_circuit
    (src/qforte/abc/ansatz.py:25-82). *)
From Coq Require Import Reals String List Arith Bool.
From Verif Require Import CBase Result GateModel CircuitModel OperatorModel SQSpec SQModel SQPoolModel PyModel CompactModel.
Import ListNotations.
Local Open Scope string_scope.

Definition term_sorter := (C * list gate -> C * list gate -> bool) -> qop -> qop.

(** sq_op_pool.cc:17-25 *)
Definition sqpool_set_coeffs (p : sqpool) (cs : list C) : res sqpool :=
  if negb (Nat.eqb (length cs) (length p)) then Throw InvalidArg else Ok (map (fun ct => (fst ct, snd (snd ct))) (combine cs p)).
(** sq_op_pool.cc:72-80.  Returns the pool itself as well: jw_transform simplifies its operators in place *)
Definition get_qubit_op_pool (srt : sorter) (p : sqpool) : res (sqpool * qpool) :=
  foreach p (fun term s =>
    do r <- jw_transform srt false (snd term);
    Ok ((fst s ++ [(fst term, fst r)])%list, pool_add_term (snd s) (fst term) (snd r))) ([], []).
(** sq_op_pool.cc:83-109, with the same in-place effect on the pool (when jw_transform throws
    the operators already simplified stay so; that intermediate object is not modelled) *)
Definition get_qubit_operator (srt : sorter) (sort : term_sorter) (order_type : string) (combine_like_terms qubit_excitations : bool) (p : sqpool) : res (sqpool * qop) :=
  if order_type =? "unique_lex" then
    do s <- foreach p (fun term s =>
      do r <- jw_transform srt qubit_excitations (snd term);
      Ok ((fst s ++ [(fst term, fst r)])%list, op_add_op (snd s) (op_mult_coeffs (snd r) (fst term)))) ([], []);
    do parent <- op_simplify true (snd s);
    do parent <- order_terms sort parent;
    Ok (fst s, parent)
  else if order_type =? "commuting_grp_lex" then
    foreach p (fun term s =>
      do r <- jw_transform srt qubit_excitations (snd term);
      do child <- op_simplify combine_like_terms (op_mult_coeffs (snd r) (fst term));
      do child <- order_terms sort child;
      Ok ((fst s ++ [(fst term, fst r)])%list, op_add_op (snd s) child)) ([], [])
  else Throw InvalidArg.

(** ansatz.py:45-55: the body of the loop over the terms of a spin-adapted operator *)
Definition sa_pair (tamp : C) (t : fterm) : C * list fterm :=
  (tamp, sq_add_term (sq_add_term [] (fcoef t) (fcre t) (fann t)) (- fcoef t)%C (fann t) (fcre t)).
(** SQOpPool.__getitem__, bindings.cc:87: an index that is too large is undefined behaviour *)
Definition pool_item (pool : sqpool) (top : nat) : res (C * list fterm) :=
  vget pool top.
(** ansatz.py:35-58; zip stops at the shorter list *)
Definition ansatz_pool (pool_type : string) (pool : sqpool) (tamps : list C) (tops : list nat) : res sqpool :=
  foreach (combine tamps tops) (fun ta temp =>
    do e <- pool_item pool (snd ta);
    if pool_type =? "sa_SD" then Ok (temp ++ map (sa_pair (fst ta)) (firstn (length (snd e) / 2) (snd e)))%list
    else Ok (temp ++ [(fst ta, snd e)])%list) [].
(** ansatz.py:60-82: [terms()[1]] of an operator with fewer than two terms is an IndexError *)
Definition ansatz_of_pool (srt : sorter) (sort : term_sorter) (compact qubit_excitations : bool) (trotter_number : nat) (temp : sqpool) : res (list gate) :=
  if compact then
    foreach temp (fun ta U =>
      match nth_error (snd ta) 1 with
      | None => Throw (PyError "IndexError")
      | Some t => do c <- compact_excitation_circuit (fst ta * fcoef t)%C (fcre t) (fann t) qubit_excitations; Ok (U ++ c)%list
      end) []
  else
    do A <- get_qubit_operator srt sort "commuting_grp_lex" true qubit_excitations temp;
    do r <- trotterize (snd A) C1 trotter_number 1;
    if Ceq_dec (snd r) C1 then Ok (fst r) else Throw (PyError "ValueError").
Definition ansatz_circuit (srt : sorter) (sort : term_sorter) (pool_type : string) (compact qubit_excitations : bool) (trotter_number : nat)
    (pool : sqpool) (tops : list nat) (tamps : list C) : res (list gate) :=
  do temp <- ansatz_pool pool_type pool tamps tops;
  ansatz_of_pool srt sort compact qubit_excitations trotter_number temp.
