(** Model of the "GSD" branch of SQOpPool::fill_pool (src/qforte/sq_op_pool.cc:110-321). *)
From Coq Require Import Reals String List Arith NArith ZArith Bool.
From Verif Require Import CBase Result Spec SQSpec SQModel SQPoolModel.
Import ListNotations.
Local Open Scope nat_scope.

(** the blocks sq_op_pool.cc:122-141 *)
Definition gsd_single (srt : sorter) (a i : nat) (pool : sqpool) : res sqpool :=
  if Nat.eqb a i then Ok pool
  else
    do t <- sq_simplify srt (sq_add_term (sq_add_term [] C1 [a] [i]) (- C1)%C [i] [a]);
    Ok (if Nat.ltb 0 (length t) then (pool ++ [(C1, t)])%list else pool).
(** sq_op_pool.cc:112-144 *)
Definition gsd_singles (srt : sorter) (irreps : list N) (norb : nat) (pool : sqpool) : res sqpool :=
  foreach (seq 0 norb) (fun i pool =>
    foreach (seq i (norb - i)) (fun a pool =>
      do ir <- find_irrep irreps [2 * i; 2 * a];
      if N.eqb ir 0 then do pool <- gsd_single srt (2 * a) (2 * i) pool; gsd_single srt (2 * a + 1) (2 * i + 1) pool
      else Ok pool) pool) pool.
(** the vectors vtemp and vadjt *)
Definition four_indices (t : fterm) : res (list nat) :=
  do x <- vget (fcre t) 0; do y <- vget (fcre t) 1; do z <- vget (fann t) 0; do w <- vget (fann t) 1; Ok [x; y; z; w].
(** std::find *)
Definition found (v : list nat) (l : list (list nat)) : bool := existsb (fun w => if list_eq_dec Nat.eq_dec v w then true else false) l.
(** one of the six blocks sq_op_pool.cc:164-317 for the indices {p, q}, {r, s}; the state is
    the pool, uniqe_2bdy and adjnt_2bdy *)
Definition gsd_double (srt : sorter) (p q r s : nat) (st : sqpool * list (list nat) * list (list nat)) : res (sqpool * list (list nat) * list (list nat)) :=
  if Nat.eqb p q || Nat.eqb r s then Ok st
  else
    do t <- sq_simplify srt (sq_add_term (sq_add_term [] C1 [p; q] [r; s]) (- C1)%C [s; r] [q; p]);
    if Nat.ltb 0 (length t) then
      do t0 <- vget t 0; do vtemp <- four_indices t0; do t1 <- vget t 1; do vadjt <- four_indices t1;
      if negb (found vtemp (snd (fst st))) then
        if negb (found vtemp (snd st)) then Ok (((fst (fst st)) ++ [(C1, t)])%list, (snd (fst st) ++ [vtemp])%list, (snd st ++ [vadjt])%list)
        else Ok st
      else Ok st
    else Ok st.
(** sq_op_pool.cc:149-321 *)
Definition gsd_doubles (srt : sorter) (irreps : list N) (norb : nat) (st : sqpool * list (list nat) * list (list nat)) : res (sqpool * list (list nat) * list (list nat)) :=
  foreach (seq 0 norb) (fun i st =>
    foreach (seq i (norb - i)) (fun j st =>
      foreach (seq 0 norb) (fun a st =>
        foreach (seq a (norb - a)) (fun b st =>
          let ia := 2 * i in let ib := 2 * i + 1 in let ja := 2 * j in let jb := 2 * j + 1 in
          let aa := 2 * a in let ab := 2 * a + 1 in let ba := 2 * b in let bb := 2 * b + 1 in
          do ir <- find_irrep irreps [ia; ja; aa; ba];
          if N.eqb ir 0 then
            do st <- gsd_double srt aa ba ia ja st;
            do st <- gsd_double srt ab bb ib jb st;
            do st <- gsd_double srt aa bb ia jb st;
            do st <- gsd_double srt ab ba ib ja st;
            do st <- gsd_double srt aa bb ib ja st;
            gsd_double srt ab ba ia jb st
          else Ok st) st) st) st) st.
Definition fill_pool_gsd (srt : sorter) (sp : orb_spaces) (pool : sqpool) : res sqpool :=
  let norb := Nat.div (n_spinorb sp) 2 in
  do pool <- gsd_singles srt (orb_irreps sp) norb pool;
  do st <- gsd_doubles srt (orb_irreps sp) norb (pool, [], []);
  Ok (fst (fst st)).
