(** Independent specification of exponentials of operators on states. *)
From Coq Require Import Reals List.
From Verif Require Import CBase Bits Spec.
Import ListNotations.
Local Open Scope C_scope.

Fixpoint Cpow (c : C) (k : nat) : C := match k with O => C1 | S k => c * Cpow c k end.
(** partial sum of the exponential series: sum_{k<=n} c^k/k! A^k psi, at the basis state I *)
Definition exp_partial (c : C) (A : state -> state) (psi : state) (I n : nat) : C :=
  Csum (fun k => Cpow c k * RtoC (/ INR (fact k)) * Nat.iter k A psi I) (seq 0 (S n)).
(** phi = exp(c A) psi: the series converges to phi at every basis state *)
Definition is_exp (c : C) (A : state -> state) (psi phi : state) : Prop :=
  forall I, Un_cv (fun n => Re (exp_partial c A psi I n)) (Re (phi I)) /\
            Un_cv (fun n => Im (exp_partial c A psi I n)) (Im (phi I)).
(** [when b I J]: the state that is phi where condition holds and psi elsewhere *)
Definition controlled (cond : nat -> bool) (phi psi : state) : state := fun I => if cond I then phi I else psi I.
(** phi is reached from psi by the exponentials exp(c A) of the listed (c, A), the first one
    acting first *)
Fixpoint exp_product (l : list (C * (state -> state))) (psi phi : state) : Prop :=
  match l with
  | [] => phi == psi
  | (c, A) :: r => exists chi, is_exp c A psi chi /\ exp_product r chi phi
  end.
