(** Model of src/qforte/maths/optimizer.py: diis and jacobi_solver.
    Amplitude vectors are lists of reals.  numpy.linalg.lstsq is an oracle (matrix as a
    function, dimension, right-hand side -> solution vector).  Printing and the counters of
    lines 109-127 are not modelled. *)
From Coq Require Import Reals String List Arith Bool.
From Verif Require Import CBase Result.
Import ListNotations.
Local Open Scope R_scope.

Notation rvec := (list R).
Fixpoint vzip (f : R -> R -> R) (a b : rvec) : rvec :=
  match a, b with x :: a', y :: b' => f x y :: vzip f a' b' | _, _ => [] end.
Definition dot (a b : rvec) : R := fold_right Rplus 0 (vzip Rmult a b).
Definition lstsq_oracle := nat -> (nat -> nat -> R) -> (nat -> R) -> (nat -> R).
Definition rmax_list (l : list R) : R := fold_right Rmax 0 l.

(** optimizer.py:12-14 *)
Definition trim {A} (max_dim : nat) (t : list rvec) (l : list A) : list A := if Nat.ltb max_dim (length t) then tl l else l.
(** optimizer.py:19-26; [e] has at most dim + 1 elements (otherwise IndexError) *)
Definition B_raw (dim : nat) (e : list rvec) : nat -> nat -> R := fun i j =>
  if Nat.ltb i (length e) && Nat.ltb j (length e) then dot (nth i e []) (nth j e [])
  else if Nat.eqb i dim && Nat.eqb j dim then 0 else -1.
Definition B_max (dim : nat) (e : list rvec) : R :=
  rmax_list (flat_map (fun i => map (fun j => Rabs (B_raw dim e i j)) (seq 0 dim)) (seq 0 dim)).
(** optimizer.py:28 *)
Definition B_mat (dim : nat) (e : list rvec) : nat -> nat -> R := fun i j =>
  if Nat.ltb i dim && Nat.ltb j dim then B_raw dim e i j / B_max dim e else B_raw dim e i j.
Definition bsol (dim : nat) : nat -> R := fun i => if Nat.eqb i dim then -1 else 0.
(** optimizer.py:32-35: sum over l < dim of x_l * t_(l+1) *)
Definition combination (x : nat -> R) (t : list rvec) : rvec :=
  fold_left (fun acc l => vzip Rplus acc (map (fun y => x l * y) (nth (S l) t []))) (seq 0 (length t - 1)) (repeat 0 (length (nth 0 t []))).
(** optimizer.py:6-37.  If all errors are zero the scaled matrix contains 0/0 (nan) and lstsq
    raises LinAlgError; an empty block raises ValueError (max of an empty array). *)
Definition diis (lstsq : lstsq_oracle) (max_dim : nat) (t_diis e_diis : list rvec) : res (rvec * list rvec * list rvec) :=
  let t := trim max_dim t_diis t_diis in
  let e := trim max_dim t_diis e_diis in
  let dim := (length t - 1)%nat in
  if Nat.ltb (S dim) (length e) then Throw (PyError "IndexError")
  else if Nat.eqb dim 0 then Throw (PyError "ValueError")
  else if Rltb 0 (B_max dim e) then
    let x := lstsq (S dim) (B_mat dim e) (bsol dim) in
    Ok (combination x t, t, e)
  else Throw (PyError "LinAlgError").

Record jstate := mkJ { tamps : rvec; t_hist : list rvec; e_hist : list rvec }.
(** optimizer.py:62-80: one pass of the loop; [update] is get_res_over_mpdenom of the residual
    (or gradient) at the current amplitudes.  [k >= 1] holds in every pass. *)
Definition jacobi_step (lstsq : lstsq_oracle) (max_dim : nat) (update : rvec -> rvec) (s : jstate) : res jstate :=
  let t_old := tamps s in
  let t1 := vzip Rplus t_old (update t_old) in
  let td := (t_hist s ++ [t1])%list in
  let ed := (e_hist s ++ [vzip Rminus t1 t_old])%list in
  if Nat.leb 2 max_dim then
    do r <- diis lstsq max_dim td ed; Ok (mkJ (fst (fst r)) (snd (fst r)) (snd r))
  else Ok (mkJ t1 td ed).
Definition jacobi_init (t0 : rvec) : jstate := mkJ t0 [t0] [].
(** optimizer.py:62-105: at most [fuel] more passes; [small t]: the norm of the residual at t,
    recorded by get_residual_vector, is below the threshold.  Result: final state and number
    of passes. *)
Fixpoint jacobi_loop (lstsq : lstsq_oracle) (max_dim : nat) (update : rvec -> rvec) (small : rvec -> bool) (fuel k : nat) (s : jstate) : res (jstate * nat) :=
  match fuel with
  | O => Ok (s, k)
  | S f =>
      do s' <- jacobi_step lstsq max_dim update s;
      if small (tamps s) then Ok (s', S k) else jacobi_loop lstsq max_dim update small f (S k) s'
  end.
(** optimizer.py:40-107: (energy, amplitudes, passes); without any pass the name Ek is unbound *)
Definition jacobi_solver (lstsq : lstsq_oracle) (max_dim : nat) (update : rvec -> rvec) (small : rvec -> bool) (energy : rvec -> R) (maxiter : nat) (t0 : rvec) : res (R * rvec * nat) :=
  do r <- jacobi_loop lstsq max_dim update small maxiter 0 (jacobi_init t0);
  if Nat.eqb (snd r) 0 then Throw (PyError "UnboundLocalError")
  else Ok (energy (tamps (fst r)), tamps (fst r), snd r).
