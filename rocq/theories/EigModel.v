(** Model of src/qforte/maths/eigsolve.py and helper/idx_org.py (sorted_largest_idxs).
    Matrices are functions nat -> nat -> C used below given dimensions.  scipy.linalg.eig is
    an oracle returning the eigenvalues and the matrix whose columns are eigenvectors. *)
From Coq Require Import Reals String List Arith Bool.
From Verif Require Import CBase Result Spec.
Import ListNotations.

(** A.dot(B), k = number of columns of A *)
Definition mdot (k : nat) (A B : mat) : mat := fun i j => Csum (fun l => (A i l * B l j)%C) (seq 0 k).
Definition eig_oracle := nat -> mat -> list C * mat.

(** idx_org.py:4-35 with use_real=True: pairs (value, old index), stable sort by the real part *)
Fixpoint insert_pair (le : R -> R -> bool) (x : C * nat) (l : list (C * nat)) : list (C * nat) :=
  match l with
  | [] => [x]
  | y :: r => if le (Re (fst x)) (Re (fst y)) then x :: l else y :: insert_pair le x r
  end.
Definition Rleb (a b : R) : bool := negb (Rltb b a).
(** reverse=True keeps the order of equal elements as well *)
Definition sorted_largest_idxs (array : list C) (rev_ : bool) : list (C * nat) :=
  fold_right (insert_pair (if rev_ then fun a b => Rleb b a else Rleb)) [] (combine array (seq 0 (length array))).

(** eigsolve.py:40-48 *)
Fixpoint keep_eigenvalues (s : list C) : res (list R) :=
  match s with
  | [] => Ok []
  | sii :: r =>
      if Rltb 1e-12 (Im sii) then Throw (PyError "ValueError")
      else do r' <- keep_eigenvalues r; Ok (if Rltb 1e-15 (Re sii) then Re sii :: r' else r')
  end.
(** eigsolve.py:57-60 *)
Definition X_prime (U : mat) (s' : list R) : mat := fun i j => (U i j * RtoC (/ sqrt (nth j s' 0%R)))%C.
(** eigsolve.py:62-63 *)
Definition H_prime (n : nat) (X H : mat) : mat := mdot n (mdot n (madj X) H) X.
(** eigsolve.py:7-110 without printing; the result is (eigenvalues, matrix) *)
Definition canonical_geig_solve (eig : eig_oracle) (n : nat) (S H : mat) (sort_ret_vals : bool) : res (list C * mat) :=
  let s := fst (eig n S) in
  let U := snd (eig n S) in
  do s' <- keep_eigenvalues s;
  let m := length s' in
  let X := X_prime U s' in
  let e' := fst (eig m (H_prime n X H)) in
  let C' := snd (eig m (H_prime n X H)) in
  if sort_ret_vals then
    let idxs := sorted_largest_idxs e' false in
    let old k := snd (nth k idxs (C0, 0)) in
    let sC := fun i k => C' i (old k) in
    let sX := fun i k => X i (old k) in
    Ok (map (fun p => nth (snd p) e' C0) idxs, mdot m sX sC)
  else Ok (e', mdot m X C').
