(** The Hamiltonian with penalty terms: H + sum_i s_i (O_i - e_i)^2. *)
From Coq Require Import Reals List.
From Verif Require Import CBase Spec OpSpec OperatorModel.
Import ListNotations.

(** (O - e) psi *)
Definition shifted (A : qop) (e : R) (psi : state) : state := sadd (op_act A psi) (sscale (RtoC (- e)) psi).
Fixpoint penalized (H : qop) (ps : list (qop * R * R)) (psi : state) : state :=
  match ps with
  | [] => op_act H psi
  | (A, e, s) :: r => sadd (sscale (RtoC s) (shifted A e (shifted A e psi))) (penalized H r psi)
  end.
(** 1-norm of the coefficients *)
Definition coefficient_sum (o : qop) : R := fold_right (fun t acc => Cabs (fst t) + acc)%R 0%R o.
(** what dropping terms of size 1e-12 can change, per unit norm of the state *)
Fixpoint penalty_error (n : nat) (ps : list (qop * R * R)) : R :=
  match ps with
  | [] => 1e-12 * INR (4 ^ n)
  | (A, e, s) :: r => 1e-12 * (INR (4 ^ n) * (1 + Rabs s) + Rabs s * (coefficient_sum A + Rabs e)) + penalty_error n r
  end%R.
