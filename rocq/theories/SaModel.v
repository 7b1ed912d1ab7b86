(** Model of the "sa_SD" branch of SQOpPool::fill_pool (src/qforte/sq_op_pool.cc:433-573) and of
    fill_pool as a whole. *)
From Coq Require Import Reals String List Arith NArith ZArith Bool.
From Verif Require Import CBase Result Spec SQSpec SQModel SQPoolModel GsdModel.
Import ListNotations.
Local Open Scope nat_scope.

(** if (condition) temp.add_term(...), the condition being that the creation (annihilation)
    indices differ *)
Definition add_pair (c : R) (p q r s : nat) (o : list fterm) : list fterm :=
  if negb (Nat.eqb p q) && negb (Nat.eqb r s) then sq_add_term o (RtoC c) [p; q] [r; s] else o.
(** temp1, sq_op_pool.cc:450-455; the quotients are exact reals *)
Definition sa_single (i a : nat) : list fterm :=
  let h := (1 / sqrt 2)%R in
  sq_add_term (sq_add_term (sq_add_term (sq_add_term [] (RtoC h) [2 * a] [2 * i]) (RtoC h) [2 * a + 1] [2 * i + 1])
    (RtoC (- h)) [2 * i] [2 * a]) (RtoC (- h)) [2 * i + 1] [2 * a + 1].
(** temp2a, sq_op_pool.cc:481-519 *)
Definition sa_double_a (i j a b : nat) : list fterm :=
  let ia := 2 * i in let ib := 2 * i + 1 in let ja := 2 * j in let jb := 2 * j + 1 in
  let aa := 2 * a in let ab := 2 * a + 1 in let ba := 2 * b in let bb := 2 * b + 1 in
  let u := (1 / sqrt 12)%R in
  let o := add_pair (2 * u) aa ba ia ja [] in
  let o := add_pair (2 * u) ab bb ib jb o in
  let o := add_pair u aa bb ia jb o in
  let o := add_pair u ab ba ib ja o in
  let o := add_pair u aa bb ib ja o in
  let o := add_pair u ab ba ia jb o in
  let o := add_pair (- (2 * u)) ja ia ba aa o in
  let o := add_pair (- (2 * u)) jb ib bb ab o in
  let o := add_pair (- u) jb ia bb aa o in
  let o := add_pair (- u) ja ib ba ab o in
  let o := add_pair (- u) ja ib bb aa o in
  add_pair (- u) jb ia ba ab o.
(** temp2b, sq_op_pool.cc:521-547 *)
Definition sa_double_b (i j a b : nat) : list fterm :=
  let ia := 2 * i in let ib := 2 * i + 1 in let ja := 2 * j in let jb := 2 * j + 1 in
  let aa := 2 * a in let ab := 2 * a + 1 in let ba := 2 * b in let bb := 2 * b + 1 in
  let u := (1 / 2)%R in
  let o := add_pair u aa bb ia jb [] in
  let o := add_pair u ab ba ib ja o in
  let o := add_pair (- u) aa bb ib ja o in
  let o := add_pair (- u) ab ba ia jb o in
  let o := add_pair (- u) jb ia bb aa o in
  let o := add_pair (- u) ja ib ba ab o in
  let o := add_pair u ja ib bb aa o in
  add_pair u jb ia ba ab o.
(** sq_op_pool.cc:552-560; std::norm is the squared modulus *)
Definition norm_of (o : list fterm) : R := fold_left (fun s t => (s + Cabs (fcoef t) * Cabs (fcoef t))%R) o 0%R.
(** sq_op_pool.cc:561-569.  For an empty operator the C++ quotient is not a number, but there is
    no coefficient to multiply; the quotient is a non-negative real, so its complex square root
    is the real one. *)
Definition normalized (o : list fterm) : list fterm := sq_mult_coeffs o (RtoC (sqrt (2 / norm_of o))).
Definition add_nonempty (o : list fterm) (pool : sqpool) : sqpool := if Nat.ltb 0 (length o) then (pool ++ [(C1, o)])%list else pool.
(** sq_op_pool.cc:434-573; the counts are non-negative ints *)
Definition fill_pool_sa (srt : sorter) (sp : orb_spaces) (pool : sqpool) : res sqpool :=
  if negb (Z.eqb (n_occ_alpha sp) (n_occ_beta sp)) then Throw InvalidArg
  else
    let nocc := Z.to_nat (n_occ_alpha sp) in
    let nvir := Z.to_nat (n_vir_alpha sp) in
    do pool <- foreach (seq 0 nocc) (fun i pool => foreach (seq 0 nvir) (fun a pool =>
      do ir <- find_irrep (orb_irreps sp) [2 * i; 2 * nocc + 2 * a];
      if N.eqb ir 0 then do t <- sq_simplify srt (sa_single i (nocc + a)); Ok (pool ++ [(C1, t)])%list else Ok pool) pool) pool;
    foreach (seq 0 nocc) (fun i pool => foreach (seq i (nocc - i)) (fun j pool =>
      foreach (seq 0 nvir) (fun a pool => foreach (seq a (nvir - a)) (fun b pool =>
        do ir <- find_irrep (orb_irreps sp) [2 * i; 2 * j; 2 * nocc + 2 * a; 2 * nocc + 2 * b];
        if N.eqb ir 0 then
          do ta <- sq_simplify srt (sa_double_a i j (nocc + a) (nocc + b));
          do tb <- sq_simplify srt (sa_double_b i j (nocc + a) (nocc + b));
          Ok (add_nonempty (normalized tb) (add_nonempty (normalized ta) pool))
        else Ok pool) pool) pool) pool) pool.
(** fill_pool, sq_op_pool.cc:110-577 *)
Definition fill_pool (srt : sorter) (sp : orb_spaces) (pool_type : string) (pool : sqpool) : res sqpool :=
  if String.eqb pool_type "GSD" then fill_pool_gsd srt sp pool
  else if String.eqb pool_type "sa_SD" then fill_pool_sa srt sp pool
  else fill_pool_excitations srt sp pool_type pool.
