(** Specification of the spin operators of m spatial orbitals on occupation-number states:
    orbital p with spin up is bit 2p, with spin down bit 2p+1. *)
From Coq Require Import Reals List Arith ZArith.
From Verif Require Import CBase Bits Spec SQSpec.
From Verif Require SaSpec.
Import ListNotations.
Local Open Scope C_scope.

(** number of spin-up and spin-down electrons of determinant I *)
Definition n_up (m I : nat) : nat := length (filter (fun p => bit I (2 * p)) (seq 0 m)).
Definition n_down (m I : nat) : nat := length (filter (fun p => bit I (2 * p + 1)) (seq 0 m)).
Definition sz_value (m I : nat) : R := ((INR (n_up m I) - INR (n_down m I)) / 2)%R.
Definition spin_z (m : nat) (psi : state) : state := fun I => RtoC (sz_value m I) * psi I.
(** S+ = sum of a+_{p up} a_{p down}, S- = sum of a+_{p down} a_{p up} *)
Notation spin_plus := SaSpec.spin_plus.
Notation spin_minus := SaSpec.spin_minus.
(** S_x = (S+ + S-)/2, S_y = (S+ - S-)/2i, S^2 = S_x^2 + S_y^2 + S_z^2 *)
Definition spin_x (m : nat) (psi : state) : state := fun I => RtoC (1/2) * (spin_plus m psi I + spin_minus m psi I).
Definition spin_y (m : nat) (psi : state) : state := fun I => mkC 0 (-1/2) * (spin_plus m psi I - spin_minus m psi I).
Definition spin_squared (m : nat) (psi : state) : state := fun I =>
  spin_x m (spin_x m psi) I + spin_y m (spin_y m psi) I + spin_z m (spin_z m psi) I.
(** number of electrons of determinant I in n spin orbitals, twice its S_z, and the weight of
    the determinants selected by P in a state of n qubits *)
Definition n_electrons (n I : nat) : nat := length (filter (bit I) (seq 0 n)).
Definition two_sz (m I : nat) : Z := (Z.of_nat (n_up m I) - Z.of_nat (n_down m I))%Z.
Definition number (n : nat) (psi : state) : state := fun I => RtoC (INR (n_electrons n I)) * psi I.
Definition sector_weight (n : nat) (psi : state) (P : nat -> bool) : R :=
  fold_right Rplus 0%R (map (fun I => Re (psi I) * Re (psi I) + Im (psi I) * Im (psi I))%R (filter P (seq 0 (2 ^ n)))).
