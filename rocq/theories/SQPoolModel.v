(** Model of src/qforte/find_irrep.cc, src/qforte/qubit_basis.{h,cc} and of the
    reference-based part of src/qforte/sq_op_pool.{h,cc}.  uint64_t and size_t bit patterns
    are [N], C++ int is [Z]. *)
From Coq Require Import Reals String List Arith NArith ZArith Bool.
From Verif Require Import CBase Result Spec SQSpec SQModel.
Import ListNotations.

(** ---- qubit_basis.h ---- *)
(** qubit_basis.h:27; a shift by 64 or more is undefined *)
Definition maskbit (pos : nat) : res N :=
  if Nat.ltb pos 64 then Ok (N.shiftl 1 (N.of_nat pos)) else Throw UB_oob.
(** qubit_basis.h:30 *)
Definition qb_get_bit (state : N) (pos : nat) : res bool :=
  do m <- maskbit pos; Ok (negb (N.eqb (N.land state m) 0)).
(** qubit_basis.h:33: -val is the int 0 or -1, converted to uint64_t *)
Definition qb_set_bit (state : N) (pos : nat) (val : bool) : res N :=
  do m <- maskbit pos;
  Ok (N.lxor state (N.land (N.lxor (if val then 2 ^ 64 - 1 else 0)%N state) m)).
(** qubit_basis.h:36 *)
Definition qb_flip_bit (state : N) (pos : nat) : res N :=
  do m <- maskbit pos; Ok (N.lxor state m).
(** qubit_basis.cc:3-15: the characters between "|" and ">", '1' as true *)
Definition qb_str (state : N) (nqubit : nat) : res (list bool) :=
  foreach (seq 0 nqubit) (fun i s => do b <- qb_get_bit state i; Ok (s ++ [b])%list) [].

(** ---- find_irrep.cc:3-12 ---- *)
Definition find_irrep (orb_irreps_to_int : list N) (spinorb_indices : list nat) : res N :=
  foreach spinorb_indices (fun index irrep =>
    do x <- vget orb_irreps_to_int (Nat.div index 2); Ok (N.lxor irrep x)) 0%N.

(** ---- sq_op_pool.cc ---- *)
(** conversion of a mathematical integer to int (two's complement) and to uint64_t *)
Definition wrap32 (z : Z) : Z := ((z + 2147483648) mod 4294967296 - 2147483648)%Z.
Definition to_u64 (z : Z) : N := Z.to_N (z mod 18446744073709551616)%Z.
(** sq_op_pool.cc:35-40; [multiplier] is an int *)
Definition ref_int_of (ref : list Z) : N :=
  fst (fold_left (fun s occupancy =>
    (to_u64 (Z.of_N (fst s) + wrap32 (occupancy * snd s)), wrap32 (snd s * 2))%Z) ref (0%N, 1%Z)).
(** the private members set by set_orb_spaces (sq_op_pool.h:46-67), without terms_ *)
Record orb_spaces := mkSpaces {
  ref_int : N; n_spinorb : nat; n_occ_alpha : Z; n_occ_beta : Z; n_vir_alpha : Z; n_vir_beta : Z; orb_irreps : list N }.
(** sq_op_pool.cc:47-63: sum of f over every second element *)
Fixpoint count_spin (is_alpha want : bool) (f : Z -> Z) (ref : list Z) : Z :=
  match ref with
  | [] => 0%Z
  | o :: r => ((if Bool.eqb is_alpha want then f o else 0) + count_spin (negb is_alpha) want f r)%Z
  end.
(** sq_op_pool.cc:32-71 *)
Definition set_orb_spaces (ref : list Z) (irreps : list N) : res orb_spaces :=
  if Nat.odd (length ref) then Throw InvalidArg else
  Ok (mkSpaces (ref_int_of ref) (length ref)
       (count_spin true true (fun o => o) ref) (count_spin true false (fun o => o) ref)
       (count_spin true true (fun o => Z.lxor o 1) ref) (count_spin true false (fun o => Z.lxor o 1) ref)
       (match irreps with [] => repeat 0%N (Nat.div (length ref) 2) | _ => irreps end)).

(** std::bitset<64>(x).to_string().substr(64 - n): the n low bits, most significant first;
    substr throws when 64 - n is negative *)
Definition bits_str (n : nat) (x : N) : res (list bool) :=
  if Nat.ltb 64 n then Throw OutOfRange
  else Ok (map (fun i => N.testbit x (N.of_nat (n - 1 - i))) (seq 0 n)).
(** std::bitset<64>(str).to_ullong() for a string of at most 64 characters *)
Definition str_int (s : list bool) : N := fold_left (fun a (b : bool) => (2 * a + (if b then 1 else 0))%N) s 0%N.

(** std::next_permutation on a string of '0' (false) and '1' (true): the longest
    non-increasing suffix is left unchanged by the recursive call; the element x before it
    is exchanged with the last larger element and the suffix is reversed *)
Fixpoint clear_last (s : list bool) : list bool :=
  match s with [] => [] | x :: r => if existsb (fun b => b) r then x :: clear_last r else false :: r end.
Fixpoint next_permutation (s : list bool) : option (list bool) :=
  match s with
  | [] => None
  | x :: r => match next_permutation r with
      | Some t => Some (x :: t)
      | None => if negb x && existsb (fun b => b) r then Some (true :: rev (clear_last r)) else None
      end
  end.
(** do push_back while next_permutation, sq_op_pool.cc:363-370 *)
Fixpoint all_permutations (fuel : nat) (s : list bool) : res (list (list bool)) :=
  match fuel with
  | O => Throw OutOfFuel
  | S f => match next_permutation s with
      | None => Ok [s]
      | Some t => do r <- all_permutations f t; Ok (s :: r)
      end
  end.
(** sq_op_pool.cc:351-357: characters at even (odd) positions *)
Fixpoint every_other (take : bool) (s : list bool) : list bool :=
  match s with [] => [] | x :: r => if take then x :: every_other false r else every_other true r end.
(** sq_op_pool.cc:376-380 *)
Fixpoint interleave (beta alpha : list bool) : list bool :=
  match beta, alpha with b :: beta', a :: alpha' => b :: a :: interleave beta' alpha' | _, _ => [] end.
(** std::sort on integers *)
Fixpoint insN (x : N) (l : list N) : list N :=
  match l with [] => [x] | y :: r => if N.ltb y x then y :: insN x r else x :: l end.
Definition sortN (l : list N) : list N := fold_right insN [] l.

(** the loop body sq_op_pool.cc:389-428; the pool is a list of (coefficient, SQOperator) *)
Definition sqpool := list (C * list fterm).
Definition occ_unocc (n : nat) (excit ref : list bool) : list nat * list nat :=
  fold_left (fun s i =>
    if nth i excit false then
      if nth i ref false then ((fst s ++ [n - i - 1])%list, snd s) else (fst s, (snd s ++ [n - i - 1])%list)
    else s) (seq 0 (length excit)) ([], []).
Definition excitation_op (srt : sorter) (occ unocc : list nat) : res (list fterm) :=
  sq_simplify srt (sq_add_term (sq_add_term [] C1 unocc occ) (- C1)%C (rev occ) (rev unocc)).
Definition det_body (srt : sorter) (sp : orb_spaces) (ref_str : list bool) (max_nbody : nat) (det : N) (pool : sqpool) : res sqpool :=
  do excit <- bits_str (n_spinorb sp) (N.lxor (ref_int sp) det);
  let n_ex := length (filter (fun b => b) excit) in
  if Nat.odd n_ex then Throw InvalidArg else
  let excit_rank := Nat.div n_ex 2 in
  if negb (Nat.eqb excit_rank 0) && Nat.leb excit_rank max_nbody then
    let occ := fst (occ_unocc (n_spinorb sp) excit ref_str) in
    let unocc := snd (occ_unocc (n_spinorb sp) excit ref_str) in
    do ir <- find_irrep (orb_irreps sp) (occ ++ unocc);
    if N.eqb ir 0 then do t <- excitation_op srt occ unocc; Ok (pool ++ [(C1, t)])%list else Ok pool
  else Ok pool.
(** sq_op_pool.cc:325-340 *)
Definition max_nbody_of (pool_type : string) : option nat :=
  (if String.eqb pool_type "S" then Some 1 else if String.eqb pool_type "SD" then Some 2
   else if String.eqb pool_type "SDT" then Some 3 else if String.eqb pool_type "SDTQ" then Some 4
   else if String.eqb pool_type "SDTQP" then Some 5 else if String.eqb pool_type "SDTQPH" then Some 6 else None)%string%nat.
(** sq_op_pool.cc:342-429 *)
Definition fill_pool_rank (srt : sorter) (sp : orb_spaces) (max_nbody : nat) (pool : sqpool) : res sqpool :=
  do ref_str <- bits_str (n_spinorb sp) (ref_int sp);
  let beta := every_other true ref_str in
  let alpha := every_other false ref_str in
  do alphas <- all_permutations (S (Nat.pow 2 (length alpha))) alpha;
  do betas <- all_permutations (S (Nat.pow 2 (length beta))) beta;
  let dets := flat_map (fun a => map (fun b => str_int (interleave b a)) betas) alphas in
  foreach (sortN dets) (det_body srt sp ref_str max_nbody) pool.
(** the branch of fill_pool for 'S' ... 'SDTQPH' (the GSD and sa_SD branches are separate);
    other strings throw, sq_op_pool.cc:575-577 *)
Definition fill_pool_excitations (srt : sorter) (sp : orb_spaces) (pool_type : string) (pool : sqpool) : res sqpool :=
  match max_nbody_of pool_type with
  | Some m => fill_pool_rank srt sp m pool
  | None => Throw InvalidArg
  end.
