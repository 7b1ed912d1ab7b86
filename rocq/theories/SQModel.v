(** Model of src/qforte/sq_operator.{h,cc} *)
From Coq Require Import Reals String List Arith Bool Permutation.
From Verif Require Import CBase Result Bits Spec SQSpec GateModel ComputerModel CircuitModel OperatorModel.
Import ListNotations.

(** An SQOperator is its vector of terms (coefficient, creation indices, annihilation
    indices): the type [list fterm]. *)
(** sq_operator.cc:11-18 *)
Definition sq_add_term (o : list fterm) (c : C) (cre ann : list nat) : list fterm := (o ++ [((c, cre), ann)])%list.
Definition sq_add_op (o p : list fterm) : list fterm := (o ++ p)%list.
(** sq_operator.cc:20-27 *)
Fixpoint sq_zip (cs : list C) (o : list fterm) : list fterm :=
  match cs, o with
  | c :: cs', ((_, cre), ann) :: o' => ((c, cre), ann) :: sq_zip cs' o'
  | _, _ => o
  end.
Definition sq_set_coeffs (o : list fterm) (cs : list C) : res (list fterm) :=
  if negb (Nat.eqb (length cs) (length o)) then Throw InvalidArg else Ok (sq_zip cs o).
(** sq_operator.cc:29-33 *)
Definition sq_mult_coeffs (o : list fterm) (m : C) : list fterm :=
  map (fun t => (((fcoef t * m)%C, fcre t), fann t)) o.

(** std::sort on a vector of indices.  It is unstable, so it is a parameter of the model;
    [legal_sort] is what the C++ standard guarantees: for a strict weak ordering the
    result is a permutation in which no later element precedes an earlier one. *)
Definition sorter := (nat -> nat -> bool) -> list nat -> list nat.
Definition weak_order (lt : nat -> nat -> bool) : Prop :=
  (forall x, lt x x = false) /\
  (forall x y z, lt x y = true -> lt y z = true -> lt x z = true) /\
  (forall x y z, lt x y = false -> lt y x = false -> lt y z = false -> lt z y = false -> lt x z = false /\ lt z x = false).
Definition legal_sort (srt : sorter) : Prop := forall lt l, weak_order lt ->
  Permutation (srt lt l) l /\ forall i j d, (i < j < length l)%nat -> lt (nth j (srt lt l) d) (nth i (srt lt l) d) = false.

(** the while loop of permutation_phase, sq_operator.cc:93-97 (the vector a is written
    but never read; its accesses have the same indices as those to p) *)
Fixpoint cycle_loop (fuel i : nat) (s : list nat * nat) : res (list nat * nat) :=
  match fuel with
  | O => Throw OutOfFuel
  | S f =>
      do pi <- vget (fst s) i;
      if Nat.eqb i pi then Ok s
      else do ppi <- vget (fst s) pi;
           do p' <- vset (fst s) i ppi;
           do p' <- vset p' pi pi;
           cycle_loop f i (p', S (snd s))
  end.
(** sq_operator.cc:88-106 *)
Definition permutation_phase (p : list nat) : res bool :=
  do s <- foreach (seq 0 (length p)) (fun i s => cycle_loop (S (length p)) i s) (p, 0%nat);
  Ok (negb (Nat.even (snd s))).
(** sq_operator.cc:40-53: returns the new list and the sign *)
Definition canonicalize_helper (srt : sorter) (op_list : list nat) : res (list nat * C) :=
  let temp_op := op_list in
  let temp := srt (fun i j => Nat.ltb (nth j temp_op 0%nat) (nth i temp_op 0%nat)) (seq 0 (length temp_op)) in
  do op' <- mapM (fun k => vget temp_op k) temp;
  do ph <- permutation_phase temp;
  Ok (op', if ph then (- C1)%C else C1).
(** sq_operator.cc:55-59 *)
Definition canonical_order_single_term (srt : sorter) (t : fterm) : res fterm :=
  do c <- canonicalize_helper srt (fcre t);
  do a <- canonicalize_helper srt (fann t);
  Ok (((fcoef t * snd c * snd a)%C, fst c), fst a).
(** sq_operator.cc:61-65 *)
Definition sq_canonical_order (srt : sorter) (o : list fterm) : res (list fterm) :=
  mapM (canonical_order_single_term srt) o.

(** operator< of std::vector<size_t> and of std::pair *)
Fixpoint vec_ltb (a b : list nat) : bool :=
  match a, b with
  | _, [] => false
  | [], _ :: _ => true
  | x :: a', y :: b' => if Nat.ltb x y then true else if Nat.ltb y x then false else vec_ltb a' b'
  end.
Definition pair_ltb (a b : list nat * list nat) : bool :=
  if vec_ltb (fst a) (fst b) then true else if vec_ltb (fst b) (fst a) then false else vec_ltb (snd a) (snd b).
(** std::map as its list of (key, value) pairs in iteration order; find, then insert or add *)
Fixpoint sq_accumulate (k : list nat * list nat) (v : C) (m : list ((list nat * list nat) * C)) : list ((list nat * list nat) * C) :=
  match m with
  | [] => [(k, v)]
  | (k', v') :: r =>
      if pair_ltb k k' then (k, v) :: m
      else if pair_ltb k' k then (k', v') :: sq_accumulate k v r
      else (k', (v' + v)%C) :: r
  end.
(** sq_operator.cc:67-86 *)
Definition sq_simplify (srt : sorter) (o : list fterm) : res (list fterm) :=
  do o' <- sq_canonical_order srt o;
  let m := fold_left (fun m t => sq_accumulate (fcre t, fann t) (fcoef t) m) o' [] in
  Ok (map (fun kv => ((snd kv, fst (fst kv)), snd (fst kv))) (filter (fun kv => Rltb 1e-12 (Cabs (snd kv))) m)).

(** the body of the loop of jw_helper, sq_operator.cc:115-135 *)
Definition jw_ladder (creator qubit_excitation : bool) (p : nat) : res qop :=
  let halfi := if creator then (mkC 0 (1/2) * (- C1))%C else mkC 0 (1/2) in
  do zs <- (if qubit_excitation then Ok [] else mapM (fun k => make_gate "Z" k k 0) (seq 0 p));
  do x <- make_gate "X" p p 0;
  do y <- make_gate "Y" p p 0;
  Ok (op_add_term (op_add_term [] (mkC (1/2) 0) (zs ++ [x])%list) halfi (zs ++ [y])%list).
(** sq_operator.cc:108-137; operator_product's default arguments simplify before and after *)
Definition jw_helper (holder : qop) (operators : list nat) (creator qubit_excitation : bool) : res qop :=
  foreach operators (fun p holder =>
    do temp <- jw_ladder creator qubit_excitation p;
    if Nat.eqb (length holder) 0 then Ok (op_add_op holder temp)
    else operator_product holder temp true true) holder.
(** the body of the loop of jw_transform, sq_operator.cc:147-166 *)
Definition jw_term (qubit_excitation : bool) (t : fterm) (qo : qop) : res qop :=
  if Nat.eqb (length (fcre t)) 0 && Nat.eqb (length (fann t)) 0 then
    Ok (op_add_op qo (op_add_term [] (fcoef t) []))
  else
    do temp1 <- jw_helper [] (fcre t) true qubit_excitation;
    do temp1 <- jw_helper temp1 (fann t) false qubit_excitation;
    Ok (op_add_op qo (op_mult_coeffs temp1 (fcoef t))).
(** sq_operator.cc:139-172.  Returns the new terms of the object itself (jw_transform
    simplifies it in place) and the qubit operator. *)
Definition jw_transform (srt : sorter) (qubit_excitation : bool) (o : list fterm) : res (list fterm * qop) :=
  do o <- sq_simplify srt o;
  do qo <- foreach o (jw_term qubit_excitation) [];
  do qo <- op_simplify true qo;
  Ok (o, qo).
